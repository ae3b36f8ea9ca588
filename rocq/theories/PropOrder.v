(** * PropOrder: theorem C63 (the order of the definitions). *)
From Coq Require Import Relations Permutation.
From Verif Require Import Base AST Parser Walker WalkSpec Context Rules CtxProofs RuleProofs RuleSpec QueryProofs PropRules SdlProofs PropSdl SchemaBuild BuildProofs PropBuild.
From Verif Require Import PropParse SchemaSpec Utils SchemaValidate ValidateProofs SchemaProofs PropSchema Top TopProofs PropTop Utf8 LexSpec PropConcat Rearrange Samples.
Import AST.

(** ** Specification *)
(** Two documents have the same definitions, in some order. *)
Definition permuted (d d' : document) : Prop := Permutation (map def_body (doc_defs d)) (map def_body (doc_defs d')).
(** Moreover the schema definition and the schema extensions are in the same order, and so are the extensions of each type. *)
Definition about_schema (b : body) : bool := match b with DSchema _ | XSchema _ => true | _ => false end.
Definition extends (n : bytes) (b : body) : bool := match b with XType t => if bytes_dec n (t_name t) then true else false | _ => false end.
Record rearranged (d d' : document) : Prop := mkRe {
  re_permuted : permuted d d';
  re_schema : filter about_schema (map def_body (doc_defs d)) = filter about_schema (map def_body (doc_defs d'));
  re_extensions : forall n, filter (extends n) (map def_body (doc_defs d)) = filter (extends n) (map def_body (doc_defs d')) }.
(** No name is defined twice. *)
Definition unique_names (d : document) : Prop := NoDup (map t_name (type_definitions d)) /\ NoDup (map dd_name (directive_definitions d)).
(** Two schemas give the same answers to every look-up. *)
Record same_schema (s s' : schema) : Prop := mkSame {
  ss_types : forall n, mget n (sc_types s) = mget n (sc_types s'); ss_dirs : forall n, mget n (sc_dirs s) = mget n (sc_dirs s');
  ss_def : sc_def s = sc_def s'; ss_query : sc_query s = sc_query s'; ss_mutation : sc_mutation s = sc_mutation s'; ss_subscription : sc_subscription s = sc_subscription s' }.

(** ** Queries *)
Lemma perm_errors d d' s : permuted d d' -> no_stray_variables d -> n_ops d = List.length (operations d) -> n_ops d' = List.length (operations d') ->
  Permutation (c_errors (validate d s)) (c_errors (validate d' s)).
Proof.
  intros P S N N'. change (Permutation (bodies d) (bodies d')) in P. apply strayless_no_stray in S.
  apply (by_kind [is_nonexec; is_anon; is_unknown_type; is_unused; is_directive_err; is_dup_directive; is_dup_arg; is_dup_input]).
  1,2: (intros e H; apply C43_no_other_errors in H; destruct e; try discriminate H; reflexivity).
  intros k Hk. repeat (destruct Hk as [<-|Hk]).
  - rewrite !C26_exact.
    assert (G : forall x, map (fun q => ENonExecutable (defined_name (def_body q))) (filter (fun q => match def_body q with DOp _ | DFrag _ => false | _ => true end) (doc_defs x)) =
      map (fun b => ENonExecutable (defined_name b)) (filter (fun b => match b with DOp _ | DFrag _ => false | _ => true end) (bodies x))).
    { intros x. unfold bodies. induction (doc_defs x) as [|q l IH]; [reflexivity|]. cbn [map filter]. destruct (def_body q) eqn:E; cbn [map]; rewrite IH; try rewrite E; reflexivity. }
    rewrite !G. apply Permutation_map, perm_filter, P.
  - rewrite (C20_exact d s N), (C20_exact d' s N'). pose proof (perm_operations d d' P) as Q. rewrite (Permutation_length Q). destruct (Nat.ltb 1 _); [|constructor]. apply Permutation_map, perm_filter, Q.
  - set (known := fun t => orb (match mget t (sc_types (given s)) with Some _ => true | None => false end) (inb t scalar_names)).
    assert (Hk : forall t, known t = true <-> (exists td, mget t (sc_types (given s)) = Some td) \/ In t scalar_names).
    { intros t. unfold known. rewrite orb_true_iff, inb_In. destruct (mget t (sc_types (given s))); split; intros [H|H]; eauto; try discriminate. destruct H; discriminate. }
    rewrite !(C21_exact _ s known Hk). apply Permutation_map, perm_filter, perm_type_refs, P.
  - apply perm_unused; assumption.
  - rewrite !(C22_exact _ s _ C22_ok_exists). apply Permutation_flat_map, perm_applications, P.
  - rewrite !C23_exact. apply Permutation_flat_map, perm_directive_sites, P.
  - rewrite !C24_exact. apply Permutation_flat_map, perm_argument_sites, P.
  - rewrite !C25_exact. apply Permutation_flat_map, perm_object_sites, P.
  - destruct Hk.
Qed.

(** ** Type systems *)
Definition entries (k : nat) (bs : list body) : list (nat * bool * opkind) :=
  flat_map (fun p => match snd p with
    | DSchema x => map (fun t => (fst p, false, ot_op t)) (s_ops x) | XSchema x => map (fun t => (fst p, true, ot_op t)) (s_ops x) | _ => [] end) (combine (seq k (List.length bs)) bs).
Lemma op_entries_bodies d : op_entries d = entries 0 (bodies d).
Proof.
  unfold op_entries, entries, bodies. rewrite map_length. generalize 0. induction (doc_defs d) as [|x l IH]; intros k; [reflexivity|]. cbn [List.length seq combine map flat_map fst snd]. rewrite IH. reflexivity.
Qed.
Definition alike (k k' : nat) (before before' : list (nat * bool * opkind)) : Prop :=
  map snd before = map snd before' /\ forall o, In (k, false, o) before <-> In (k', false, o) before'.
Lemma entries_one sch k k' ext ops : forall before before', alike k k' before before' ->
  with_before (optype_error sch) before (map (fun t => (k, ext, ot_op t)) ops) = with_before (optype_error sch) before' (map (fun t => (k', ext, ot_op t)) ops).
Proof.
  induction ops as [|t ops IH]; intros b b' [A1 A2]; [reflexivity|]. cbn [map with_before]. f_equal.
  - cbn [optype_error]. rewrite A1. destruct ext; [reflexivity|]. specialize (A2 (ot_op t)). destruct (in_dec entry_dec (k, false, ot_op t) b), (in_dec entry_dec (k', false, ot_op t) b'); tauto || reflexivity.
  - apply IH. split; [rewrite !map_app, A1; reflexivity|]. intros o. rewrite !in_app_iff, A2. cbn. intuition congruence.
Qed.
Lemma entries_filter sch bs : forall k k' before before', map snd before = map snd before' -> (forall e, In e before -> fst (fst e) < k) -> (forall e, In e before' -> fst (fst e) < k') ->
  with_before (optype_error sch) before (entries k bs) = with_before (optype_error sch) before' (entries k' (filter about_schema bs)).
Proof.
  induction bs as [|b bs IH]; intros k k' x x' E L L'; [reflexivity|].
  assert (Skip : with_before (optype_error sch) x (entries (S k) bs) = with_before (optype_error sch) x' (entries k' (filter about_schema bs))).
  { apply IH; [exact E| |exact L']. intros e He. specialize (L e He). lia. }
  assert (Keep : forall ext ops, with_before (optype_error sch) x (map (fun t => (k, ext, ot_op t)) ops ++ entries (S k) bs) =
    with_before (optype_error sch) x' (map (fun t => (k', ext, ot_op t)) ops ++ entries (S k') (filter about_schema bs))).
  { intros ext ops. rewrite !with_before_app. f_equal.
    - apply entries_one. split; [exact E|]. intros o. split; intros H; [apply L in H|apply L' in H]; cbn in H; lia.
    - apply IH.
      + rewrite !map_app, !map_map, E. reflexivity.
      + intros e He. apply in_app_iff in He as [He|He]; [specialize (L e He); lia|]. apply in_map_iff in He as (t & <- & _). cbn. lia.
      + intros e He. apply in_app_iff in He as [He|He]; [specialize (L' e He); lia|]. apply in_map_iff in He as (t & <- & _). cbn. lia. }
  destruct b; cbn [filter about_schema]; unfold entries in *; cbn [List.length seq combine flat_map fst snd app] in *; try exact Skip; apply Keep.
Qed.
Lemma same_optypes d d' s : filter about_schema (bodies d) = filter about_schema (bodies d') ->
  reported is_optype_err (validate_sdl d s) = reported is_optype_err (validate_sdl d' s).
Proof.
  intros E. rewrite !C31_exact, !op_entries_bodies. rewrite (entries_filter (given s) (bodies d) 0 0 [] []), (entries_filter (given s) (bodies d') 0 0 [] []); try reflexivity; try (intros e []). rewrite E. reflexivity.
Qed.
Lemma same_directive_of d d' s n : permuted d d' -> NoDup (map dd_name (directive_definitions d)) -> directive_of d s n = directive_of d' s n.
Proof. intros P N. unfold directive_of. rewrite (perm_find _ _ _ (perm_directive_definitions d d' P) (nodup_unique dd_name _ n N)). reflexivity. Qed.
Lemma same_type_of d d' s n : permuted d d' -> NoDup (map t_name (type_definitions d)) -> type_of d s n = type_of d' s n.
Proof. intros P N. unfold type_of. rewrite (perm_find _ _ _ (perm_type_definitions d d' P) (nodup_unique t_name _ n N)). reflexivity. Qed.
Lemma flat_map_ext' {X Y} (f g : X -> list Y) l : (forall x, f x = g x) -> flat_map f l = flat_map g l.
Proof. intros H. induction l as [|x l IH]; [reflexivity|]. cbn. rewrite H, IH. reflexivity. Qed.
Lemma perm_sdl_errors d d' s : permuted d d' -> filter about_schema (map def_body (doc_defs d)) = filter about_schema (map def_body (doc_defs d')) -> unique_names d ->
  Permutation (c_errors (validate_sdl d s)) (c_errors (validate_sdl d' s)).
Proof.
  intros P E [NT ND]. pose proof (fun n => same_directive_of d d' s n P ND) as DO. pose proof (fun n => same_type_of d d' s n P NT) as TO. pose proof P as PP. change (Permutation (bodies d) (bodies d')) in P.
  apply (by_kind [is_optype_err; is_dup_directive; is_dup_arg; is_dup_input; is_unknown_arg; is_directive_err; is_unknown_type; is_underscores; is_ext_err; is_missing_arg; is_dup_type; is_existed_type; is_dup_dir; is_existed_dir; is_schema_err]).
  1,2: (intros e H; apply C43_sdl_no_other_errors in H; destruct e; try discriminate H; reflexivity).
  destruct (C23_sdl_exact d s) as (A1 & A2 & A3). destruct (C23_sdl_exact d' s) as (B1 & B2 & B3).
  destruct (C32_types d s) as [A4 A5]. destruct (C32_types d' s) as [B4 B5]. destruct (C32_directives d s) as [A6 A7]. destruct (C32_directives d' s) as [B6 B7].
  intros k Hk. repeat (destruct Hk as [<-|Hk]).
  - rewrite (same_optypes d d' s E). apply Permutation_refl.
  - rewrite A1, B1. apply Permutation_flat_map, perm_directive_sites, P.
  - rewrite A2, B2. apply Permutation_flat_map, perm_argument_sites, P.
  - rewrite A3, B3. apply Permutation_flat_map, perm_object_sites, P.
  - rewrite !C27_actual. erewrite flat_map_ext'; [apply Permutation_flat_map, perm_applications, P|]. intros x. rewrite DO. reflexivity.
  - rewrite !(C22_sdl_exact _ s _ C22_ok_exists). erewrite flat_map_ext'; [apply Permutation_flat_map, perm_applications, P|]. intros x. rewrite DO. reflexivity.
  - set (known := fun t => orb (match type_of d s t with Some _ => true | None => false end) (inb t scalar_names)).
    assert (Hk : forall t, known t = true <-> (exists td, type_of d s t = Some td) \/ In t scalar_names).
    { intros t. unfold known. rewrite orb_true_iff, inb_In. destruct (type_of d s t); split; intros [H|H]; eauto; try discriminate. destruct H; discriminate. }
    rewrite (C21_sdl_exact d s known Hk), (C21_sdl_exact d' s known); [apply Permutation_map, perm_filter, perm_type_refs, P|]. intros t. rewrite <- TO. apply Hk.
  - rewrite !(C29_actual _ s bad_name bad_name_spec). apply Permutation_map, perm_filter, perm_defined_names, P.
  - rewrite !C30_exact. erewrite flat_map_ext'; [apply Permutation_flat_map, perm_type_extensions, P|]. intros x. unfold extension_error. rewrite TO. reflexivity.
  - rewrite !C28_exact. erewrite flat_map_ext'; [apply Permutation_flat_map, perm_applications, P|]. intros x. rewrite DO. reflexivity.
  - rewrite A5, B5. apply Permutation_map, perm_later, perm_filter, Permutation_map, perm_type_definitions, P.
  - rewrite A4, B4. apply Permutation_map, perm_filter, Permutation_map, perm_type_definitions, P.
  - rewrite A7, B7. apply Permutation_map, perm_later, perm_filter, Permutation_map, perm_directive_definitions, P.
  - rewrite A6, B6. apply Permutation_map, perm_filter, Permutation_map, perm_directive_definitions, P.
  - rewrite !C32_schema_definitions. pose proof (perm_schema_definitions d d' P) as Q. destruct s; [apply Permutation_map, Q|].
    assert (L : forall l l' : list schemadef, List.length l = List.length l' -> map (fun _ => ESchemaNotAlone) (tl l) = map (fun _ => ESchemaNotAlone) (tl l')).
    { intros [|x l] [|y l'] H; try reflexivity; try discriminate H. cbn [tl]. cbn in H. injection H as H. clear - H. revert l' H. induction l as [|z l IH]; intros [|y l'] H; try discriminate H; [reflexivity|]. cbn. f_equal. apply IH. cbn in H. lia. }
    rewrite (L _ _ (Permutation_length Q)). apply Permutation_refl.
  - destruct Hk.
Qed.
Lemma permuted_sym d d' : permuted d d' -> permuted d' d.
Proof. apply Permutation_sym. Qed.
Lemma rearranged_sym d d' : rearranged d d' -> rearranged d' d.
Proof. intros [A B C]. split; [apply permuted_sym, A|symmetry; exact B|intros n; symmetry; apply C]. Qed.
Lemma unique_perm d d' : permuted d d' -> unique_names d -> unique_names d'.
Proof.
  intros P [A B]. change (Permutation (bodies d) (bodies d')) in P. split.
  - eapply Permutation_NoDup; [apply Permutation_map, perm_type_definitions, P|exact A].
  - eapply Permutation_NoDup; [apply Permutation_map, perm_directive_definitions, P|exact B].
Qed.
Lemma sdl_valid_unique d s : sdl_valid d s -> unique_names d.
Proof. intros V. split; [apply (dv_new_types _ _ V)|apply (dv_new_directives _ _ V)]. Qed.
Lemma perm_sdl_valid d d' s : permuted d d' -> filter about_schema (map def_body (doc_defs d)) = filter about_schema (map def_body (doc_defs d')) -> sdl_valid d s -> sdl_valid d' s.
Proof.
  intros P E V. pose proof (perm_sdl_errors d d' s P E (sdl_valid_unique d s V)) as Q. apply sdl_errors_iff in V. apply sdl_errors_iff. rewrite V in Q. apply Permutation_nil, Q.
Qed.

(** ** The schema *)
Lemma about_extensions bs : flat_map (fun b => match b with XSchema x => [x] | _ => [] end) (filter about_schema bs) = flat_map (fun b => match b with XSchema x => [x] | _ => [] end) bs.
Proof. induction bs as [|b bs IH]; [reflexivity|]. destruct b; cbn [filter about_schema flat_map app]; rewrite ?IH; reflexivity. Qed.
Lemma about_definitions bs : flat_map (fun b => match b with DSchema x => [x] | _ => [] end) (filter about_schema bs) = flat_map (fun b => match b with DSchema x => [x] | _ => [] end) bs.
Proof. induction bs as [|b bs IH]; [reflexivity|]. destruct b; cbn [filter about_schema flat_map app]; rewrite ?IH; reflexivity. Qed.
Lemma same_schema_extensions d d' : rearranged d d' -> schema_extensions d = schema_extensions d'.
Proof.
  intros R. unfold schema_extensions. rewrite !(flat_bodies (fun b => match b with XSchema x => [x] | _ => [] end)). unfold bodies. rewrite <- (about_extensions (map def_body (doc_defs d))), (re_schema _ _ R), about_extensions. reflexivity.
Qed.
Lemma same_schema_definitions d d' : rearranged d d' -> schema_definitions d = schema_definitions d'.
Proof.
  intros R. unfold schema_definitions. rewrite !(flat_bodies (fun b => match b with DSchema x => [x] | _ => [] end)). unfold bodies. rewrite <- (about_definitions (map def_body (doc_defs d))), (re_schema _ _ R), about_definitions. reflexivity.
Qed.
Lemma extends_filter n bs : filter (fun x => if bytes_dec n (t_name x) then true else false) (flat_map (fun b => match b with XType x => [x] | _ => [] end) bs) =
  flat_map (fun b => match b with XType x => [x] | _ => [] end) (filter (extends n) bs).
Proof. induction bs as [|b bs IH]; [reflexivity|]. destruct b; cbn [filter extends flat_map app]; try exact IH. destruct (bytes_dec n (t_name t)); cbn [flat_map app]; rewrite IH; reflexivity. Qed.
Lemma same_extensions_of d d' n : rearranged d d' -> extensions_of d n = extensions_of d' n.
Proof.
  intros R. unfold extensions_of, type_extensions. rewrite !(flat_bodies (fun b => match b with XType x => [x] | _ => [] end)), !extends_filter. unfold bodies. rewrite (re_extensions _ _ R n). reflexivity.
Qed.
Lemma same_visits d d' ord : rearranged d d' -> visits d ord -> visits d' ord.
Proof. intros R [N V]. split; [exact N|]. intros n xs. rewrite <- (same_extensions_of d d' n R). apply V. Qed.
Lemma same_targets d d' s : rearranged d d' -> unique_names d -> targets_defined d s -> targets_defined d' s.
Proof.
  intros R [U _] T x Hx. rewrite <- (same_type_of d d' s _ (re_permuted _ _ R) U). apply T. eapply Permutation_in; [|exact Hx]. apply Permutation_sym, perm_type_extensions, (re_permuted _ _ R).
Qed.
Lemma same_built d d' s ord ord' : rearranged d d' -> unique_names d -> targets_defined d s -> visits d ord -> visits d' ord' -> same_schema (built d s ord) (built d' s ord').
Proof.
  intros R U T V V'. pose proof (same_targets d d' s R U T) as T'. destruct (built_after d s ord V T) as (sd & H & A). destruct (built_after d' s ord' V' T') as (sd' & H' & A').
  assert (ET : forall n, defined_type d n = defined_type d' n).
  { intros n. unfold defined_type. apply perm_find; [apply perm_type_definitions, (re_permuted _ _ R)|apply nodup_unique, U]. }
  assert (ED : forall n, defined_directive d n = defined_directive d' n).
  { intros n. unfold defined_directive. apply perm_find; [apply perm_directive_definitions, (re_permuted _ _ R)|apply nodup_unique, U]. }
  destruct (af_def _ _ _ _ A) as (A1 & A2 & A3 & A4). destruct (af_def _ _ _ _ A') as (B1 & B2 & B3 & B4). cbv zeta in A1, A2, A3, A4, B1, B2, B3, B4.
  assert (ES : sd_schema sd = sd_schema sd') by (rewrite (va_def _ _ _ H), (va_def _ _ _ H'), (same_schema_definitions d d' R); reflexivity).
  assert (EX : sd_schemaexts sd = sd_schemaexts sd') by (rewrite (va_sexts _ _ _ H), (va_sexts _ _ _ H'), (same_schema_extensions d d' R); reflexivity).
  rewrite <- ES, <- EX in B1, B2, B3, B4. rewrite (va_schema _ _ _ H') in B2, B3, B4. rewrite (va_schema _ _ _ H) in A2, A3, A4.
  unfold built. constructor; try congruence.
  - intros n. rewrite (af_types _ _ _ _ A), (af_types _ _ _ _ A'). cbv zeta. rewrite (visits_upd d ord n _ V), (visits_upd d' ord' n _ V'), (va_ext _ _ _ H), (va_ext _ _ _ H'), (va_types _ _ _ H), (va_types _ _ _ H'), (va_schema _ _ _ H), (va_schema _ _ _ H'), ET, (same_extensions_of d d' n R). reflexivity.
  - intros n. rewrite (af_dirs _ _ _ _ A), (af_dirs _ _ _ _ A'). rewrite (va_ext _ _ _ H), (va_ext _ _ _ H'), (va_dirs _ _ _ H), (va_dirs _ _ _ H'), ED. reflexivity.
Qed.

(** ** Schema validation asks the schema only by look-ups *)
Section Alike.
Context (s s' : schema) (E : same_schema s s').
Lemma sa_kind n : kind_of s n = kind_of s' n. Proof. unfold kind_of. rewrite (ss_types _ _ E). reflexivity. Qed.
Lemma sa_type k d : type_in s k d -> type_in s' k d. Proof. intros (n & H & K). exists n. rewrite <- (ss_types _ _ E). auto. Qed.
Lemma sa_fields d : with_fields_in s d -> with_fields_in s' d. Proof. intros [H|H]; [left|right]; apply sa_type, H. Qed.
Lemma sa_among ks t : kind_among s ks t -> kind_among s' ks t. Proof. intros (n & k & H). exists n, k. rewrite <- sa_kind. exact H. Qed.
Lemma sa_root o d : root s o d -> root s' o d. Proof. intros (t & H & K). exists t. rewrite <- (ss_types _ _ E). auto. Qed.
Lemma sa_name n : checked_name s n -> checked_name s' n.
Proof.
  intros H. destruct H as [n d H|n d a H Ha|n d H Hn|d f H Hf|d f a H Hf Ha].
  - eapply cn_directive. rewrite <- (ss_dirs _ _ E). exact H.
  - eapply cn_directive_arg; [rewrite <- (ss_dirs _ _ E); exact H|exact Ha].
  - eapply cn_type; [rewrite <- (ss_types _ _ E); exact H|exact Hn].
  - eapply cn_field; [apply sa_fields, H|exact Hf].
  - eapply cn_field_arg; [apply sa_fields, H|exact Hf|exact Ha].
Qed.
Lemma sa_provide d i f : must_provide s d i f -> must_provide s' d i f.
Proof. intros (A & (t & Ht & Hi) & K & Hf). split; [apply sa_type, A|]. split; [exists t; split; [exact Ht|rewrite <- (ss_types _ _ E); exact Hi]|]. split; assumption. Qed.
Lemma sa_sub n m : sub_named s n m -> sub_named s' n m.
Proof.
  intros [H|u H K1 K2 K3|d K H K1 K2]; [apply sn_same, H|eapply sn_union|eapply sn_interface]; rewrite <- ?sa_kind, <- ?(ss_types _ _ E); eassumption.
Qed.
Lemma sa_covariant a b : covariant s a b -> covariant s' a b.
Proof. intros H. induction H; constructor; try assumption. apply sa_sub; assumption. Qed.
End Alike.
Lemma same_sym s s' : same_schema s s' -> same_schema s' s.
Proof. intros [A B C D F G]. constructor; try (intros n); symmetry; auto. Qed.
Lemma sa_undecided s s' a b : same_schema s s' -> undecided s a b -> undecided s' a b.
Proof.
  intros E H. induction H as [n nn m mm K1 K2 K3 K4|]; constructor; try assumption; rewrite <- ?(sa_kind s s' E); try assumption.
  intros X. apply K3. eapply sa_sub; [apply same_sym, E|exact X].
Qed.
Lemma same_violation s s' e : same_schema s s' -> violation s e -> violation s' e.
Proof.
  intros E H. pose proof (same_sym s s' E) as E'. destruct H.
  - eapply vi_name; [eapply sa_name; eassumption|assumption].
  - apply vi_query_missing. intros d H'. rewrite <- (ss_query _ _ E) in H'. eapply H, sa_root; eassumption.
  - eapply vi_query; [rewrite <- (ss_query _ _ E); eapply sa_root; eassumption|assumption].
  - eapply vi_mutation; [rewrite <- (ss_mutation _ _ E); eapply sa_root; eassumption|assumption].
  - eapply vi_subscription; [rewrite <- (ss_subscription _ _ E); eapply sa_root; eassumption|assumption].
  - eapply vi_directive_arg; [rewrite <- (ss_dirs _ _ E); eassumption|assumption].
  - eapply vi_no_fields; [eapply sa_fields; eassumption|assumption].
  - eapply vi_output; [eapply sa_fields; eassumption|assumption|]. intros X. eapply H1, sa_among; eassumption.
  - eapply vi_field_arg; [eapply sa_fields; eassumption|assumption|assumption].
  - eapply vi_input; [eapply sa_fields; eassumption|assumption|assumption|]. intros X. eapply H2, sa_among; eassumption.
  - eapply vi_not_interface; [eapply sa_type; eassumption|assumption|]. rewrite <- (sa_kind s s' E). assumption.
  - eapply vi_interface_twice; [eapply sa_type; eassumption| |assumption]. rewrite <- (sa_kind s s' E). assumption.
  - eapply vi_field_missing; [eapply sa_provide; eassumption|assumption].
  - eapply vi_field_type; [eapply sa_provide; eassumption|eassumption|]. intros X. eapply H1, sa_covariant; eassumption.
Qed.
Lemma same_whole s s' : same_schema s s' -> whole_types s -> whole_types s'.
Proof. intros E W d f Hd Hf. apply (W d f); [eapply sa_fields; [apply same_sym, E|exact Hd]|exact Hf]. Qed.
Lemma same_undecided s s' : same_schema s s' -> has_undecided s -> has_undecided s'.
Proof. intros E (d & i & f & g & A & B & C). exists d, i, f, g. split; [eapply sa_provide; eassumption|]. split; [exact B|]. eapply sa_undecided; eassumption. Qed.

(** ** C63.  ParseDoc: the same verdict and the same errors, whatever the order of the definitions. *)
Theorem C63_query : forall fok i i' s d d', parse fok i = Doc d -> parse fok i' = Doc d' -> permuted d d' -> no_stray_variables d ->
  (parse_doc fok i s = Returned d <-> parse_doc fok i' s = Returned d') /\
  (forall es, parse_doc fok i s = Reported es -> exists es', parse_doc fok i' s = Reported es' /\ Permutation es es').
Proof.
  intros fok i i' s d d' E E' P S. pose proof (perm_errors d d' s P S (n_ops_spec _ _ _ E) (n_ops_spec _ _ _ E')) as Q. unfold parse_doc. rewrite E, E', (proj2 (proj2 (C43_read_only d s))), (proj2 (proj2 (C43_read_only d' s))).
  destruct (c_errors (validate d s)) as [|e es], (c_errors (validate d' s)) as [|e' es'].
  - split; [tauto|]. intros es H. discriminate.
  - apply Permutation_nil in Q. discriminate.
  - apply Permutation_sym, Permutation_nil in Q. discriminate.
  - split; [split; discriminate|]. intros es0 H. injection H as <-. eauto.
Qed.
Print Assumptions C63_query.
(** The hypothesis on variables is met by every document of operations and fragments. *)
Theorem C63_query_returned : forall fok i i' s d d', parse fok i = Doc d -> parse fok i' = Doc d' -> permuted d d' ->
  (parse_doc fok i s = Returned d <-> parse_doc fok i' s = Returned d').
Proof.
  intros fok i i' s d d' E E' P. split; intros H.
  - apply (C63_query fok i i' s d d' E E' P); [|exact H]. apply C33_doc_returned_iff in H as [_ V]. apply executable_no_stray, (qv_executable _ _ V).
  - apply (C63_query fok i' i s d' d E' E (permuted_sym _ _ P)); [|exact H]. apply C33_doc_returned_iff in H as [_ V]. apply executable_no_stray, (qv_executable _ _ V).
Qed.
Print Assumptions C63_query_returned.

(** ParseSDLDoc: the same schema, *)
Theorem C63_schema : forall fok peq i i' s d d' ord od ot oi ord' od' ot' oi', (forall a b, peq a b = true -> a = b) -> parse fok i = Doc d -> parse fok i' = Doc d' -> rearranged d d' ->
  orders d s ord od ot oi -> orders d' s ord' od' ot' oi' -> forall fuel sch, parse_sdl_doc fok peq fuel ord od ot oi i s = Returned sch ->
  exists fuel' sch', parse_sdl_doc fok peq fuel' ord' od' ot' oi' i' s = Returned sch' /\ same_schema sch sch'.
Proof.
  intros fok peq i i' s d d' ord od ot oi ord' od' ot' oi' P E E' R O O' fuel sch H.
  assert (OO : forall x, parse fok i = Doc x -> orders x s ord od ot oi) by (intros x Hx; rewrite E in Hx; injection Hx as <-; exact O).
  assert (OO' : forall x, parse fok i' = Doc x -> orders x s ord' od' ot' oi') by (intros x Hx; rewrite E' in Hx; injection Hx as <-; exact O').
  destruct (proj1 (C33_sdl_returned_iff fok peq ord od ot oi i s sch P OO)) as (x & Ex & V & -> & W & U & X); [exists fuel; exact H|]. rewrite E in Ex. injection Ex as <-.
  assert (S : same_schema (built d s ord) (built d' s ord')).
  { apply same_built; [exact R|apply (sdl_valid_unique d s V)|apply C34_valid_targets, sdl_errors_iff, V|apply O|apply O']. }
  destruct (proj2 (C33_sdl_returned_iff fok peq ord' od' ot' oi' i' s (built d' s ord') P OO')) as (fuel' & H'); [|exists fuel', (built d' s ord'); split; [exact H'|exact S]].
  exists d'. split; [exact E'|]. split; [apply (perm_sdl_valid d d' s (re_permuted _ _ R) (re_schema _ _ R) V)|]. split; [reflexivity|]. split; [apply (same_whole _ _ S W)|].
  split; [intros U'; apply U, (same_undecided _ _ (same_sym _ _ S) U')|]. intros e X'. apply (X e), (same_violation _ _ _ (same_sym _ _ S) X').
Qed.
Print Assumptions C63_schema.
Lemma reported_returns fok peq fuel ord od ot oi i s d es : (forall a b, peq a b = true -> a = b) -> parse fok i = Doc d -> orders d s ord od ot oi -> sdl_valid d s ->
  parse_sdl_doc fok peq fuel ord od ot oi i s = Reported es -> whole_types (built d s ord) /\ ~ has_undecided (built d s ord).
Proof.
  intros P E (Ov & Od & Ot & Oi) V H. unfold parse_sdl_doc in H. rewrite E, (proj2 (proj2 (C43_sdl_read_only d s))) in H. apply sdl_errors_iff in V. destruct (C34_valid_targets d s V) as [Td _]. destruct (C34_no_crash d s ord Ov Td) as [N1 N2].
  rewrite V in H. cbv zeta in H. rewrite N1, N2 in H. fold (built d s ord) in H. destruct (validate_schema peq fuel od ot oi (built d s ord) (c_errors (validate_sdl d s))) as [es'| |] eqn:Ev; try discriminate.
  pose proof (returns_whole peq fuel od ot oi _ _ _ Ot Ev) as W. split; [exact W|]. intros U.
  destruct (C36_schema_terminates_iff peq od ot oi _ P Od Ot Oi (built_named fok i d s ord E Ov Td) W) as [_ L]. rewrite (L U fuel) in Ev. discriminate.
Qed.
(** or errors in both cases: the same ones, if no name is defined twice; *)
Theorem C63_sdl_errors : forall fok peq i i' s d d' ord od ot oi ord' od' ot' oi', (forall a b, peq a b = true -> a = b) -> parse fok i = Doc d -> parse fok i' = Doc d' -> rearranged d d' ->
  orders d s ord od ot oi -> orders d' s ord' od' ot' oi' -> forall fuel es, parse_sdl_doc fok peq fuel ord od ot oi i s = Reported es ->
  exists fuel' es', parse_sdl_doc fok peq fuel' ord' od' ot' oi' i' s = Reported es' /\ (unique_names d -> forall e, In e es <-> In e es').
Proof.
  intros fok peq i i' s d d' ord od ot oi ord' od' ot' oi' P E E' R O O' fuel es H.
  assert (OO : forall x, parse fok i = Doc x -> orders x s ord od ot oi) by (intros x Hx; rewrite E in Hx; injection Hx as <-; exact O).
  assert (OO' : forall x, parse fok i' = Doc x -> orders x s ord' od' ot' oi') by (intros x Hx; rewrite E' in Hx; injection Hx as <-; exact O').
  destruct (C33_sdl_reported fok peq ord od ot oi i s P OO) as (A1 & _ & _). destruct (C33_sdl_reported fok peq ord' od' ot' oi' i' s P OO') as (B1 & B2 & B3).
  destruct (A1 fuel es H) as (Ne & x & Ex & C). rewrite E in Ex. injection Ex as <-. destruct C as [[NV ->]|[V X]].
  - exists 0, (c_errors (validate_sdl d' s)). split.
    + apply B2; [exact E'|]. intros V'. apply NV. destruct (rearranged_sym _ _ R) as [R1 R2 _]. apply (perm_sdl_valid d' d s R1 R2 V').
    + intros U e. pose proof (perm_sdl_errors d d' s (re_permuted _ _ R) (re_schema _ _ R) U) as Q. split; apply Permutation_in; [exact Q|apply Permutation_sym, Q].
  - assert (S : same_schema (built d s ord) (built d' s ord')).
    { apply same_built; [exact R|apply (sdl_valid_unique d s V)|apply C34_valid_targets, sdl_errors_iff, V|apply O|apply O']. }
    pose proof (perm_sdl_valid d d' s (re_permuted _ _ R) (re_schema _ _ R) V) as V'.
    destruct (reported_returns fok peq fuel ord od ot oi i s d es P E O V H) as [W U]. destruct es as [|e0 es]; [contradiction|].
    destruct (B3 d' e0 E' V') as (fuel' & es' & H').
    + apply (same_whole _ _ S W).
    + intros U'. apply U, (same_undecided _ _ (same_sym _ _ S) U').
    + apply (same_violation _ _ _ S). apply X. left. reflexivity.
    + exists fuel', es'. split; [exact H'|]. intros _ e. destruct (B1 fuel' es' H') as (_ & x & Ex & C). rewrite E' in Ex. injection Ex as <-. destruct C as [[NV _]|[_ X']]; [contradiction|].
      rewrite X, X'. split; apply same_violation; [exact S|apply same_sym, S].
Qed.
Print Assumptions C63_sdl_errors.
(** the errors of the document's own rules moreover equally often. *)
Theorem C63_sdl_errors_counted : forall d d' s, permuted d d' -> filter about_schema (map def_body (doc_defs d)) = filter about_schema (map def_body (doc_defs d')) -> unique_names d ->
  Permutation (c_errors (validate_sdl d s)) (c_errors (validate_sdl d' s)).
Proof. exact perm_sdl_errors. Qed.
Print Assumptions C63_sdl_errors_counted.

(** In text: files that are joined by newlines may be joined in any order. *)
Lemma docs_permuted {X} (R : list Z -> X -> Prop) files files' : Permutation files files' -> forall docs, Forall2 R files docs -> exists docs', Forall2 R files' docs' /\ Permutation docs docs'.
Proof.
  induction 1 as [|c l l' P IH|a b l|l1 l2 l3 P1 IH1 P2 IH2]; intros docs F.
  - exists docs. split; [exact F|apply Permutation_refl].
  - inversion F as [|? y ? ys Hy Hys]; subst. destruct (IH ys Hys) as (zs & Hz & Pz). exists (y :: zs). split; [constructor; assumption|constructor; exact Pz].
  - inversion F as [|? y ? ys Hy Hys]; subst. inversion Hys as [|? z ? zs Hz Hzs]; subst. exists (z :: y :: zs). split; [repeat constructor; assumption|constructor].
  - destruct (IH1 docs F) as (d2 & F2 & Q2). destruct (IH2 d2 F2) as (d3 & F3 & Q3). exists d3. split; [exact F3|eapply Permutation_trans; eassumption].
Qed.
Lemma perm_concat {X} (l l' : list (list X)) : Permutation l l' -> Permutation (List.concat l) (List.concat l').
Proof.
  induction 1 as [|a l l' P IH|a b l|l1 l2 l3 P1 IH1 P2 IH2]; cbn [List.concat].
  - constructor.
  - apply Permutation_app_head, IH.
  - rewrite !app_assoc. apply Permutation_app_tail, Permutation_app_comm.
  - eapply Permutation_trans; eassumption.
Qed.
Theorem C63_files : forall fok files files' docs, files <> [] -> Permutation files files' -> regular_blocks (joined files) -> regular_blocks (joined files') ->
  Forall2 (fun cs d => clean cs /\ parse fok (utf8s cs) = Doc d /\ complete_types d /\ ~ opens_block cs) files docs ->
  exists d d', parse fok (utf8s (joined files)) = Doc d /\ parse fok (utf8s (joined files')) = Doc d' /\ permuted d d'.
Proof.
  intros fok files files' docs N P R R' F. destruct (docs_permuted _ _ _ P docs F) as (docs' & F' & Q).
  assert (N' : files' <> []) by (intros ->; apply Permutation_sym, Permutation_nil in P; contradiction).
  destruct (C51_files fok files docs N R F) as (d & E & B). destruct (C51_files fok files' docs' N' R' F') as (d' & E' & B'). exists d, d'. split; [exact E|]. split; [exact E'|]. unfold permuted. rewrite B, B'. apply perm_concat, Permutation_map, Q.
Qed.
Print Assumptions C63_files.

(** ** What the hypotheses exclude *)
(** A variable in a type definition is counted for the operation before it, *)
Theorem C63_stray_refuted : exists d d' s e, permuted d d' /\ In e (c_errors (validate d s)) /\ ~ In e (c_errors (validate d' s)).
Proof.
  exists (src "query A($v:Int) {a} query B($v:Int){a} type T @skip(if:$v) {a:ID}"), (src "query A($v:Int) {a} type T @skip(if:$v) {a:ID} query B($v:Int){a}"), None, (EUnusedVariable (B "v") (B "A")). split; [|split].
  - vm_compute. apply perm_skip, perm_swap.
  - vm_compute. repeat (first [left; reflexivity|right]).
  - vm_compute. intros H. repeat (destruct H as [H|H]; [discriminate H|]). destruct H.
Qed.
Print Assumptions C63_stray_refuted.
(** the first of two definitions of a directive is the one that counts, *)
Theorem C63_twice_refuted : exists d d' s e, rearranged d d' /\ In e (c_errors (validate_sdl d s)) /\ ~ In e (c_errors (validate_sdl d' s)).
Proof.
  exists (src "directive @d on FIELD directive @d on OBJECT type A @d {a:ID}"), (src "directive @d on OBJECT directive @d on FIELD type A @d {a:ID}"), None, (EMisplaced (B "d") 1024%N). split; [|split].
  - split; [vm_compute; apply perm_swap|vm_compute; reflexivity|intros n; vm_compute; reflexivity].
  - vm_compute. repeat (first [left; reflexivity|right]).
  - vm_compute. intros H. repeat (destruct H as [H|H]; [discriminate H|]). destruct H.
Qed.
Print Assumptions C63_twice_refuted.
(** a schema definition is not compared with the schema extensions before it (C31), *)
Theorem C63_schema_extension_refuted : exists d d' s, permuted d d' /\ sdl_valid d s /\ ~ sdl_valid d' s.
Proof.
  exists (src "type A {a:ID} extend schema {query:A} schema {query:A}"), (src "type A {a:ID} schema {query:A} extend schema {query:A}"), None. split; [vm_compute; apply perm_skip, perm_swap|]. split.
  - apply sdl_errors_iff. vm_compute. reflexivity.
  - intros V. apply sdl_errors_iff in V. vm_compute in V. discriminate.
Qed.
Print Assumptions C63_schema_extension_refuted.
(** and the extensions of a type add their fields in their order. *)
Theorem C63_extensions_refuted : exists d d' n, permuted d d' /\ sdl_valid d None /\ sdl_valid d' None /\
  option_map (fun t => map fd_name (t_fields t)) (mget n (sc_types (built d None (ord_of d None)))) <> option_map (fun t => map fd_name (t_fields t)) (mget n (sc_types (built d' None (ord_of d' None)))).
Proof.
  exists (src "type A {a:ID} extend type A {b:ID} extend type A {c:ID}"), (src "type A {a:ID} extend type A {c:ID} extend type A {b:ID}"), (B "A"). split; [vm_compute; apply perm_skip, perm_swap|].
  split; [apply sdl_errors_iff; vm_compute; reflexivity|]. split; [apply sdl_errors_iff; vm_compute; reflexivity|]. vm_compute. discriminate.
Qed.
Print Assumptions C63_extensions_refuted.

(** ** Examples *)
Definition query1 : document := src "query Q($v:Int $u:Int) {...F} fragment F on T {a(b:$v)} query ($x:X){a @d}".
Definition query2 : document := src "query ($x:X){a @d} query Q($v:Int $u:Int) {...F} fragment F on T {a(b:$v)}".
Example C63_query_nonvacuous : permuted query1 query2 /\ no_stray_variables query1 /\ query1 <> query2 /\ c_errors (validate query1 None) <> c_errors (validate query2 None) /\ List.length (c_errors (validate query1 None)) = 6.
Proof.
  split; [vm_compute; eapply Permutation_trans; [apply perm_skip, perm_swap|apply perm_swap]|]. split.
  - apply executable_no_stray. intros x H. vm_compute in H. intuition subst; reflexivity.
  - split; [vm_compute; discriminate|]. split; [vm_compute; discriminate|vm_compute; reflexivity].
Qed.
Definition sdl1 : document := src "extend type A implements I {b:ID} type A @d {a:ID} schema {query:A} interface I {b:ID} extend schema {mutation:A} directive @d on OBJECT extend type A {c:ID}".
Definition sdl2 : document := src "directive @d on OBJECT interface I {b:ID} schema {query:A} type A @d {a:ID} extend type A implements I {b:ID} extend type A {c:ID} extend schema {mutation:A}".
Lemma pick {X} (a : X) l1 l2 l : Permutation l (l1 ++ l2) -> Permutation (a :: l) (l1 ++ a :: l2).
Proof. apply Permutation_cons_app. Qed.
Example C63_sdl_nonvacuous : rearranged sdl1 sdl2 /\ sdl_valid sdl1 None /\ unique_names sdl1 /\ map def_body (doc_defs sdl1) <> map def_body (doc_defs sdl2).
Proof.
  assert (V : sdl_valid sdl1 None) by (apply sdl_errors_iff; vm_compute; reflexivity). split; [|split; [exact V|split; [exact (sdl_valid_unique _ _ V)|vm_compute; discriminate]]]. split.
  - unfold permuted. vm_compute. apply (pick _ [_;_;_;_] [_;_]). cbn [app]. apply (pick _ [_;_;_] [_;_]). cbn [app]. apply (pick _ [_;_] [_;_]). cbn [app]. apply (pick _ [_] [_;_]). cbn [app]. apply (pick _ [_;_] []). cbn [app]. apply (pick _ [] [_]). apply Permutation_refl.
  - vm_compute. reflexivity.
  - intros n. let x := eval vm_compute in (map def_body (doc_defs sdl1)) in let y := eval vm_compute in (map def_body (doc_defs sdl2)) in
      (assert (E1 : map def_body (doc_defs sdl1) = x) by (vm_compute; reflexivity); assert (E2 : map def_body (doc_defs sdl2) = y) by (vm_compute; reflexivity)).
    rewrite E1, E2. cbn [filter extends t_name]. destruct (bytes_dec n _); reflexivity.
Qed.
Example C63_files_nonvacuous : Forall2 (fun cs d => clean cs /\ parse anyfloat (utf8s cs) = Doc d /\ complete_types d /\ ~ opens_block cs)
    [PropLex.src "scalar A"; PropLex.src "type B { a: A }"; PropLex.src "type C # c"]
    (map (fun b => mkDoc b 0 0 0 0 (List.length b) 0 0) [[mkDef 1 1 (DType (mkTd KScalar [] (B "A") [] [] [] [] [] []))];
      [mkDef 1 1 (DType (mkTd KObject [] (B "B") [] [] [mkFd [] (B "a") [] (TNamed (B "A") false) []] [] [] []))];
      [mkDef 1 1 (DType (mkTd KObject [] (B "C") [] [] [] [] [] []))]]) /\
  Permutation [PropLex.src "scalar A"; PropLex.src "type B { a: A }"; PropLex.src "type C # c"] [PropLex.src "type C # c"; PropLex.src "scalar A"; PropLex.src "type B { a: A }"].
Proof. split; [exact C51_files_nonvacuous|]. apply Permutation_sym. eapply Permutation_trans; [apply perm_swap|apply perm_skip, perm_swap]. Qed.
