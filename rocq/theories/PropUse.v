(** * PropUse: C54, what the verdict on a query depends on: its skeleton and two facts about the schema. *)
From Verif Require Import Base AST Lexer Parser Walker WalkSpec Context Rules CtxProofs RuleProofs RuleSpec QueryProofs Utils SchemaValidate PropParse PropRules Top TopProofs PropTop PropText Positions Restyle Samples.

(** ** The document *)
(** Without positions, field names, aliases and !s, and with null in the place of every other literal. *)
Definition plain : style := mkStyle (fun _ => []) (fun _ => []) (fun _ => VNull) (fun _ => false).
Definition skeleton (d : document) : document := Positions.blank (restyle plain d).
Lemma plain_proper : proper_style plain. Proof. intros v _. exact I. Qed.
Lemma rc_errors x c : c_errors (rc x c) = c_errors c. Proof. reflexivity. Qed.
Lemma rc_crash x c : c_crash (rc x c) = c_crash c. Proof. reflexivity. Qed.
Lemma blc_errors c : c_errors (bl c) = c_errors c. Proof. reflexivity. Qed.
Lemma skeleton_errors d s : c_errors (validate (skeleton d) s) = c_errors (validate d s).
Proof. unfold skeleton. rewrite validate_blank, blc_errors, (validate_restyle _ plain_proper). apply rc_errors. Qed.
(** Documents with the same skeleton get the same errors, in the same order; *)
Theorem C54_skeleton : forall d d' s, skeleton d = skeleton d' -> c_errors (validate d s) = c_errors (validate d' s).
Proof. intros d d' s E. rewrite <- (skeleton_errors d), <- (skeleton_errors d'), E. reflexivity. Qed.
Print Assumptions C54_skeleton.
(** so do sources that parse to such documents. *)
Theorem C54_sources : forall fok i i' d d' s, parse fok i = Doc d -> parse fok i' = Doc d' -> skeleton d = skeleton d' ->
  same_ending (fun x y => x = d /\ y = d') (parse_doc fok i s) (parse_doc fok i' s).
Proof.
  intros fok i i' d d' s H H' E. unfold parse_doc. rewrite H, H', (proj2 (proj2 (C43_read_only d s))), (proj2 (proj2 (C43_read_only d' s))), (C54_skeleton d d' s E).
  destruct (c_errors (validate d' s)); [exact (conj eq_refl eq_refl)|reflexivity].
Qed.
Print Assumptions C54_sources.

(** ** The schema *)
Definition known (s : option schema) (t : bytes) : Prop := (exists td, mget t (sc_types (given s)) = Some td) \/ In t scalar_names.
Definition declared (s : option schema) (n : bytes) : Prop := exists x, directive_for (given s) n = Some x.
Definition usable (s : option schema) (n : bytes) (l : dirloc) : Prop := exists x, directive_for (given s) n = Some x /\ allowed x l.
(** The type names, and the directives and where they may be used. *)
Definition same_names (s s' : option schema) : Prop :=
  (forall t, known s t <-> known s' t) /\ (forall n, declared s n <-> declared s' n) /\ forall n l, usable s n l <-> usable s' n l.

(** Two contexts that differ in the schema only. *)
Definition put (s : schema) (c : ctx) : ctx := mkCtx (c_doc c) (c_errors c) s (c_sdl c) (c_ops c) (c_frags c) (c_refs c) (c_vars c) (c_exec c) (c_crash c).
Section schemas.
Variables s s' : option schema.
Hypothesis Hs : same_names s s'.
Definition fits (c : ctx) : Prop := c_schema c = given s /\ c_sdl c = None.
Definition even_h (h : handler ctx) : Prop := forall c n, fits c -> h (put (given s') c) n = put (given s') (h c n) /\ fits (h c n).
Definition even (w : walker ctx) : Prop := forall ph t, Forall even_h (w ph t).
Definition even_rule (r : walker ctx -> walker ctx) : Prop := forall w, even w -> even (r w).
Lemma even_add ph t h : even_h h -> even_rule (add_handler ph t h).
Proof. intros Hh w Hw ph' t'. unfold add_handler. destruct (phase_eq_dec ph ph'); [destruct (ntype_eq_dec t t')|]; try apply Hw. apply Forall_app. split; [apply Hw|repeat constructor; apply Hh; assumption]. Qed.
Lemma even_new rs : Forall even_rule rs -> even (new_walker rs).
Proof.
  unfold new_walker. intros H. assert (even (@empty_walker ctx)) as E by (intros ph t; constructor). revert E. generalize (@empty_walker ctx) as w.
  induction H as [|r rs Hr _ IH]; intros w Hw; [exact Hw|]. apply IH, Hr, Hw.
Qed.
Lemma walk_even w d c : even w -> fits c -> walk w d (put (given s') c) = put (given s') (walk w d c) /\ fits (walk w d c).
Proof.
  intros H. rewrite !walk_run. generalize (events (tDocument d)) as es. intros es. revert c. induction es as [|[ph n] es IH]; intros c Hc; [split; [reflexivity|exact Hc]|].
  unfold run_events. cbn [fold_left]. fold (run_events w es (step w (put (given s') c) (ph, n))). fold (run_events w es (step w c (ph, n))).
  assert (S : step w (put (given s') c) (ph, n) = put (given s') (step w c (ph, n)) /\ fits (step w c (ph, n))); [|destruct S as [-> S]; apply IH, S].
  unfold step. cbn [fst snd]. clear IH es. specialize (H ph (ntype_of n)). revert c Hc. induction H as [|h hs Hh _ IHh]; intros c Hc; [split; [reflexivity|exact Hc]|].
  cbn [fold_left]. destruct (Hh c n Hc) as [-> F]. apply IHh, F.
Qed.
(** Handlers that read neither the schema nor [c_sdl]. *)
Lemma free_even h : (forall c n t, h (put t c) n = put t (h c n)) -> (forall c n, c_schema (h c n) = c_schema c /\ c_sdl (h c n) = c_sdl c) -> even_h h.
Proof. intros H1 H2 c n [F1 F2]. split; [apply H1|]. destruct (H2 c n) as [E1 E2]. split; congruence. Qed.
Lemma each_put {X} (f : X -> ctx -> ctx) t l : (forall x c, f x (put t c) = put t (f x c)) -> forall c, each f l (put t c) = put t (each f l c).
Proof. intros H. unfold each. induction l as [|y l IH]; intros c; [reflexivity|]. cbn [fold_left]. rewrite H. apply IH. Qed.
Lemma each_keep {X} (f : X -> ctx -> ctx) l : (forall x c, c_schema (f x c) = c_schema c /\ c_sdl (f x c) = c_sdl c) -> forall c, c_schema (each f l c) = c_schema c /\ c_sdl (each f l c) = c_sdl c.
Proof. intros H. unfold each. induction l as [|y l IH]; intros c; [auto|]. cbn [fold_left]. destruct (IH (f y c)) as [-> ->]. apply H. Qed.
Lemma unique_put mk l t c : unique_loop mk l (put t c) = put t (unique_loop mk l c).
Proof.
  unfold unique_loop. generalize (@nil bytes) as seen. revert c. induction l as [|y l IH]; intros c seen; [reflexivity|]. cbn [fold_left fst snd].
  destruct (inb y seen); [exact (IH (add_error (mk y) c) seen)|apply IH].
Qed.
Lemma unique_keep mk l c : c_schema (unique_loop mk l c) = c_schema c /\ c_sdl (unique_loop mk l c) = c_sdl c.
Proof.
  unfold unique_loop. generalize (@nil bytes) as seen. revert c. induction l as [|y l IH]; intros c seen; [auto|]. cbn [fold_left fst snd].
  destruct (inb y seen); [destruct (IH (add_error (mk y) c) seen) as [-> ->]; auto|apply IH].
Qed.
Lemma rvu_put t c i : recursive_variable_usages (put t c) i = recursive_variable_usages c i.
Proof.
  unfold recursive_variable_usages. f_equal. change (ctx_fuel (put t c)) with (ctx_fuel c). generalize (@nil bytes, @nil nat) as st. generalize (ctx_fuel c) as fuel.
  intros fuel. revert i. induction fuel as [|f IH]; intros i st; [reflexivity|]. cbn [rvu].
  change (referenced_fragments (put t c) i) with (referenced_fragments c i). change (variable_usages (put t c) i) with (variable_usages c i).
  generalize (Some (fold_left (fun agg v => addset v agg) (variable_usages c i) (fst st), snd st)) as o. induction (referenced_fragments c i) as [|rd l IHl]; intros o; [reflexivity|].
  cbn [fold_left]. rewrite IHl. f_equal. destruct o as [[agg seen]|]; [|reflexivity]. destruct (inNat rd seen); [reflexivity|apply IH].
Qed.
Ltac free := apply even_add, free_even; intros c n; [intros t|]; destruct n; try (reflexivity || (split; reflexivity)).
Lemma e_setExec : even_rule setExecutableDefinition. Proof. free. Qed.
Lemma e_setFrags : even_rule setFragments. Proof. free. Qed.
Lemma e_setRefs : even_rule setReferencedFragments.
Proof.
  free; destruct s0; try (reflexivity || (split; reflexivity)).
  - change (numbered (doc_defs (c_doc (put t c)))) with (numbered (doc_defs (c_doc c))). apply each_put. intros y c'. destruct (def_body (snd y)); try reflexivity. destruct (beqb _ _); [|reflexivity]. cbv zeta. change (c_exec (put t c')) with (c_exec c'). change (c_refs (put t c')) with (c_refs c'). destruct (inNat _ _); reflexivity.
  - apply each_keep. intros y c'. destruct (def_body (snd y)); try (split; reflexivity). destruct (beqb _ _); [|split; reflexivity]. cbv zeta. destruct (inNat _ _); split; reflexivity.
Qed.
Lemma e_setVars : even_rule setVariableUsages.
Proof. free; destruct v; try (reflexivity || (split; reflexivity)); cbv zeta; change (c_exec (put t c)) with (c_exec c) || idtac; destruct (inb _ _) eqn:E; try (split; reflexivity); change (c_vars (put t c)) with (c_vars c) in E; rewrite E; reflexivity. Qed.
Lemma e_exec : even_rule ExecutableDefinitions. Proof. free; destruct (def_body d); try (reflexivity || (split; reflexivity)). Qed.
Lemma e_anon : even_rule LoneAnonymousOperation.
Proof. free; [change (n_ops (c_doc (put t c))) with (n_ops (c_doc c))|]; destruct (beqb _ _ && _); try (reflexivity || (split; reflexivity)). Qed.
Lemma e_unused : even_rule NoUnusedVariables.
Proof.
  free; destruct b; try (reflexivity || (split; reflexivity)).
  - rewrite rvu_put. destruct (recursive_variable_usages c i) as [uses|]; [|reflexivity]. apply each_put. intros y c'. destruct (inb _ _); reflexivity.
  - destruct (recursive_variable_usages c i) as [uses|]; [|split; reflexivity]. apply each_keep. intros y c'. destruct (inb _ _); split; reflexivity.
Qed.
Lemma e_udirs : even_rule UniqueDirectivesPerLocation. Proof. free; [apply unique_put|apply unique_keep]. Qed.
Lemma e_uargs : even_rule UniqueArgumentNames.
Proof.
  intros w Hw. unfold UniqueArgumentNames. repeat (apply even_add; [apply free_even; intros c n; [intros t|]; destruct n; try (reflexivity || (split; reflexivity)); try (destruct s0; try (reflexivity || (split; reflexivity))); (apply unique_put || apply unique_keep)|]). exact Hw.
Qed.
Lemma e_uinput : even_rule UniqueInputFieldNames. Proof. free; destruct v; try (reflexivity || (split; reflexivity)); [apply unique_put|apply unique_keep]. Qed.
Lemma known_b t x : negb (mem t (sc_types (given x))) && negb false && negb (is_specified_scalar t) = true <-> ~ known x t.
Proof.
  unfold known, mem, is_specified_scalar. fold scalar_names. destruct (mget t (sc_types (given x))) as [td|]; cbn [negb andb].
  - split; [discriminate|]. intros H. destruct H. left. eauto.
  - rewrite negb_true_iff. rewrite inb_notIn. split; [intros H [[td E]|E]; [discriminate|contradiction]|tauto].
Qed.
Lemma e_types : even_rule KnownTypeNames.
Proof.
  apply even_add. intros c n Fc. pose proof Fc as [F1 F2]. destruct n; try (split; [reflexivity|exact Fc]). destruct t as [t nn|t nn|]; try (split; [reflexivity|exact Fc]). cbv zeta.
  change (c_schema (put (given s') c)) with (given s'). change (c_sdl (put (given s') c)) with (c_sdl c). rewrite F1, F2.
  pose proof (known_b t s) as K. pose proof (known_b t s') as K'. destruct Hs as [Hk _]. specialize (Hk t).
  destruct (negb (mem t (sc_types (given s))) && _ && _), (negb (mem t (sc_types (given s'))) && _ && _); try tauto; try (split; [reflexivity|exact Fc]); exfalso;
  [assert (X : ~ known s t) by (apply K; reflexivity); assert (Y : false = true) by (apply K'; tauto)|assert (X : ~ known s' t) by (apply K'; reflexivity); assert (Y : false = true) by (apply K; tauto)]; discriminate.
Qed.
Lemma e_dirs : even_rule KnownDirectives.
Proof.
  apply even_add. intros c n Fc. pose proof Fc as [F1 F2]. destruct n; try (split; [reflexivity|exact Fc]). cbv zeta.
  change (c_schema (put (given s') c)) with (given s'). change (c_sdl (put (given s') c)) with (c_sdl c). rewrite F1, F2.
  change (match mget (d_name d) (sc_dirs (given s)) with Some x => Some x | None => mget (d_name d) specified_directives end) with (directive_for (given s) (d_name d)).
  change (match mget (d_name d) (sc_dirs (given s')) with Some x => Some x | None => mget (d_name d) specified_directives end) with (directive_for (given s') (d_name d)).
  destruct Hs as (_ & Hd & Hu). specialize (Hd (d_name d)). specialize (Hu (d_name d) (d_loc d)). unfold declared, usable in Hd, Hu.
  destruct (directive_for (given s) (d_name d)) as [x|], (directive_for (given s') (d_name d)) as [x'|].
  - pose proof (allowed_spec x (d_loc d)) as A. pose proof (allowed_spec x' (d_loc d)) as A'. assert (Q : allowed x (d_loc d) <-> allowed x' (d_loc d)).
    { split; intros H; [destruct (proj1 Hu (ex_intro _ x (conj eq_refl H))) as (z & E & Z)|destruct (proj2 Hu (ex_intro _ x' (conj eq_refl H))) as (z & E & Z)]; injection E as <-; exact Z. }
    destruct (N.eqb (N.land (dd_locs x) (d_loc d)) 0), (N.eqb (N.land (dd_locs x') (d_loc d)) 0); try (split; [reflexivity|exact Fc]); exfalso; [assert (false = false) as _ by reflexivity; assert (true = false) by (apply A, Q, A'; reflexivity)|assert (true = false) by (apply A', Q, A; reflexivity)]; discriminate.
  - destruct (proj1 Hd (ex_intro _ x eq_refl)) as (z & E). discriminate.
  - destruct (proj2 Hd (ex_intro _ x' eq_refl)) as (z & E). discriminate.
  - split; [reflexivity|exact Fc].
Qed.
Lemma even_query : even query_context_walker.
Proof. apply even_new. repeat (apply Forall_cons || apply Forall_nil); [apply e_setFrags|apply e_setExec|apply e_setRefs|apply e_setVars]. Qed.
Lemma even_specified : even (new_walker Specified).
Proof. apply even_new. repeat (apply Forall_cons || apply Forall_nil); [apply e_exec|apply e_anon|apply e_types|apply e_unused|apply e_dirs|apply e_udirs|apply e_uargs|apply e_uinput]. Qed.
Lemma put_errors t c c' : c = put t c' -> c_errors c' = c_errors c. Proof. intros ->. reflexivity. Qed.
Lemma same_errors d : c_errors (validate d s) = c_errors (validate d s').
Proof.
  apply (put_errors (given s')). unfold validate.
  assert (N : new_context d s' = put (given s') (new_context d s) /\ fits (new_context d s)).
  { unfold new_context. apply (walk_even query_context_walker d (mkCtx d [] (given s) None [] [] [] [] None false) even_query). split; reflexivity. }
  destruct N as [-> F]. apply (walk_even _ _ _ even_specified F).
Qed.
End schemas.

(** A document with one fragment. *)
Definition on (t : bytes) (dirs : list directive) : document := mkDoc [mkDef 1 1 (DFrag (mkFrag (B "F") (TNamed t false) dirs []))] 0 1 0 0 0 0 0.
Lemma on_type t dirs : below (NDocument (on t dirs)) (NNamedType (TNamed t false)).
Proof.
  apply below_kid with (n := NDefinitions (doc_defs (on t dirs))); [left; reflexivity|]. eapply below_kid; [left; reflexivity|]. eapply below_kid; [left; reflexivity|]. eapply below_kid; [left; reflexivity|].
  eapply below_kid; [left; reflexivity|]. eapply below_kid; [left; reflexivity|]. eapply below_kid; [left; reflexivity|]. apply below_refl.
Qed.
Lemma on_directives t x : applications (on t [x]) = [x] -> forall s ok, (forall x l, ok x l = true <-> allowed x l) -> reported is_directive_err (validate (on t [x]) s) =
  match directive_for (given s) (d_name x) with None => [EUnknownDirective (d_name x)] | Some y => if ok y (d_loc x) then [] else [EMisplaced (d_name x) (d_loc x)] end.
Proof. intros E s ok Hok. rewrite (C22_exact _ s ok Hok), E. cbn [flat_map]. apply app_nil_r. Qed.
Lemma on_applications t n l : applications (on t [mkDir n [] l]) = [mkDir n [] l]. Proof. reflexivity. Qed.

(** Validation tells two schemas apart exactly when they differ in their type names or in their directives and locations. *)
Theorem C54_schema : forall s s', (forall d, c_errors (validate d s) = c_errors (validate d s')) <-> same_names s s'.
Proof.
  intros s s'. split; [|intros H d; apply (same_errors s s' H)]. intros H.
  assert (K : forall t, ~ known s t <-> ~ known s' t).
  { intros t. assert (Q : forall x, In (EUnknownType t) (c_errors (validate (on t []) x)) <-> ~ known x t).
    { intros x. rewrite C21_iff. unfold known. split.
      - intros (_ & E & N) [[td E']|I]; [congruence|contradiction].
      - intros N. split; [exists false; apply on_type|]. split; [|tauto]. destruct (mget t (sc_types (given x))) as [td|]; [destruct N; left; eauto|reflexivity]. }
    rewrite <- !Q, H. tauto. }
  assert (D : forall t x, known x t \/ ~ known x t).
  { intros t x. unfold known. destruct (mget t (sc_types (given x))) as [td|]; [left; left; eauto|]. destruct (in_dec bytes_dec t scalar_names); [tauto|]. right. intros [[td E]|I]; [discriminate|contradiction]. }
  set (ok := fun x l => negb (N.eqb (N.land (dd_locs x) l) 0)). assert (Hok : forall x l, ok x l = true <-> allowed x l) by (intros x l; unfold ok; rewrite negb_true_iff; apply allowed_spec).
  assert (R : forall n l, match directive_for (given s) n with None => [EUnknownDirective n] | Some y => if ok y l then [] else [EMisplaced n l] end =
                          match directive_for (given s') n with None => [EUnknownDirective n] | Some y => if ok y l then [] else [EMisplaced n l] end).
  { intros n l. pose proof (on_directives [] (mkDir n [] l) (on_applications [] n l)) as Q. cbn [d_name d_loc] in Q. rewrite <- (Q s ok Hok), <- (Q s' ok Hok). unfold reported. rewrite H. reflexivity. }
  split; [intros t; specialize (K t); destruct (D t s), (D t s'); tauto|]. split.
  - intros n. specialize (R n 0%N). unfold declared. destruct (directive_for (given s) n) as [x|], (directive_for (given s') n) as [x'|].
    + split; eauto.
    + destruct (ok x 0%N); discriminate R.
    + destruct (ok x' 0%N); discriminate R.
    + split; intros [z E]; discriminate.
  - intros n l. specialize (R n l). unfold usable. destruct (directive_for (given s) n) as [x|], (directive_for (given s') n) as [x'|].
    + pose proof (Hok x l) as A. pose proof (Hok x' l) as A'. assert (ok x l = ok x' l) as E by (destruct (ok x l), (ok x' l); try reflexivity; discriminate R). rewrite E in A.
      split; intros (z & Ez & Az); injection Ez as <-; [exists x'|exists x]; (split; [reflexivity|]); tauto.
    + destruct (ok x l); discriminate R.
    + destruct (ok x' l); discriminate R.
    + tauto.
Qed.
Print Assumptions C54_schema.
(** In particular ParseDoc returns the same with both. *)
Theorem C54_schema_sources : forall fok i s s', same_names s s' -> parse_doc fok i s = parse_doc fok i s'.
Proof.
  intros fok i s s' H. unfold parse_doc. destruct (parse fok i) as [d|m| |]; try reflexivity. rewrite (proj2 (proj2 (C43_read_only d s))), (proj2 (proj2 (C43_read_only d s'))), (proj2 (C54_schema s s') H d). reflexivity.
Qed.
Print Assumptions C54_schema_sources.

(** ** What is therefore not checked *)
Definition returned {A} (e : ending A) : bool := match e with Returned _ => true | _ => false end.
(** The schema of good_sdl (types Node, User, Query with fields me and n). *)
Definition users : schema := match parse_sdl_with 9 good_sdl None with Returned s => s | _ => empty_schema end.
(** A query is accepted although it selects a field its type lacks; selects fields of a scalar or none of an object; gives a field
    unknown arguments, or a directive arguments of a wrong type or none of the required ones; uses a variable that is not declared, declares
    one twice, or of an output type or with a default of another type; spreads a fragment that is not defined, that spreads itself, or that can never apply; defines a fragment or an operation twice,
    or a fragment on a scalar; a subscription with two fields; and for root types that the schema does not have. *)
Definition unchecked : list string :=
  ["{nothing}"; "{me{name{x}}}"; "{me}"; "{me(x:1){name}}"; "{me @include(if:1){name}}"; "{me @include{name}}"; "{me(x:$v){name}}"; "query($v:ID,$v:ID){me(x:$v){name}}"; "query($v:User){me(x:$v){name}}"; "query($v:Int!=null){me(x:$v){name}}";
   "{...Missing}"; "{...F} fragment F on Query{...F}"; "{...on User{...on Query{n}}}"; "{...F} fragment F on User{name} fragment F on Query{me}"; "query A{me} query A{n}"; "fragment F on ID{x}"; "subscription S{a b}"; "mutation M{a}"]%string.
Theorem C54_unchecked_refuted : forall q, In q unchecked -> returned (parse_doc anyfloat (B q) (Some users)) = true.
Proof. apply Forall_forall. repeat (constructor; [vm_compute; reflexivity|]). constructor. Qed.
Print Assumptions C54_unchecked_refuted.

(** Two different sources with one skeleton, two different schemas with the same names, and two that are told apart. *)
Definition field_names (d : document) : list bytes := flat_map (fun n => match n with NFieldSelection (SField _ f _ _ _) => [f] | _ => [] end) (nodes d).
Definition q1 : document := src "query Q($v:Int!=3){a:me(x:$v,y:[1,{z:""s""}])@skip(if:true){name}}".
Definition q2 : document := src "query Q($v:Int=null){other(x:$v,y:[BIG,{z:2.5}]) @skip(if:0) {b:c}}".
Definition bare : schema := mkSchema None None None None [(B "deprecated2", mkDd [] (B "x") [] LObject)] [(B "Node", mkTd KUnion [] [] [] [] [] [] [] []); (B "User", mkTd KUnion [] [] [] [] [] [] [] []); (B "Query", mkTd KUnion [] [] [] [] [] [] [] [])].
Example C54_nonvacuous : skeleton q1 = skeleton q2 /\ field_names q1 = map B ["me"; "name"]%string /\ field_names q2 = map B ["other"; "c"]%string /\
  same_names (Some users) (Some bare) /\ ~ same_names (Some users) None /\ users <> bare.
Proof.
  split; [vm_compute; reflexivity|]. split; [vm_compute; reflexivity|]. split; [vm_compute; reflexivity|].
  assert (T : map fst (sc_types users) = map B ["Node"; "User"; "Query"; "ID"; "String"]%string) by (vm_compute; reflexivity).
  assert (D : map (fun e => (fst e, dd_locs (snd e))) (sc_dirs users) = [(B "deprecated2", LObject); (B "skip", dd_locs skip_directive); (B "include", dd_locs include_directive); (B "deprecated", dd_locs deprecated_directive)]) by (vm_compute; reflexivity).
  assert (Q : sc_query users <> None) by (vm_compute; discriminate).
  revert T D Q. generalize users as u. intros u T D Q. split; [|split].
  - assert (K : forall t, (exists td, mget t (sc_types u) = Some td) <-> In t (map B ["Node"; "User"; "Query"; "ID"; "String"]%string)).
    { intros t. rewrite <- T. clear. induction (sc_types u) as [|[k x] l IH]; cbn [mget map In fst]; [split; [intros [td E]; discriminate|intros []]|]. destruct (beqb t k) eqn:E.
      - apply beqb_true in E. subst. split; eauto.
      - rewrite IH. split; [auto|]. intros [->|H]; [rewrite beqb_refl in E; discriminate|exact H]. }
    assert (K' : forall t, (exists td, mget t (sc_types bare) = Some td) <-> In t (map B ["Node"; "User"; "Query"]%string)).
    { intros t. cbn [mget sc_types bare map In]. repeat match goal with |- context [beqb t ?a] => let Z := fresh in destruct (beqb t a) eqn:Z; [apply beqb_true in Z; subst; split; eauto 6|] end.
      split; [intros [td X]; discriminate|]. intros [<-|[<-|[<-|[]]]]; rewrite beqb_refl in *; discriminate. }
    destruct (sc_dirs u) as [|[k1 x1] [|[k2 x2] [|[k3 x3] [|[k4 x4] [|y l]]]]] eqn:Eu; try discriminate D. cbn [map fst snd] in D. 
    assert (k1 = B "deprecated2" /\ k2 = B "skip" /\ k3 = B "include" /\ k4 = B "deprecated") as (-> & -> & -> & ->) by (repeat split; congruence).
    assert (dd_locs x1 = LObject /\ dd_locs x2 = dd_locs skip_directive /\ dd_locs x3 = dd_locs include_directive /\ dd_locs x4 = dd_locs deprecated_directive) as (D1 & D2 & D3 & D4) by (repeat split; congruence).
    assert (F : forall n, option_map dd_locs (directive_for u n) = option_map dd_locs (directive_for bare n)).
    { intros n. unfold directive_for. rewrite Eu. cbn [mget sc_dirs bare]. repeat match goal with |- context [beqb n ?a] => destruct (beqb n a); [cbn [option_map dd_locs]; congruence|] end. reflexivity. }
    split; [intros t; unfold known; cbn [given]; rewrite K, K'; unfold scalar_names; cbn [map In]; tauto|]. split.
    + intros n. specialize (F n). unfold declared. cbn [given]. destruct (directive_for u n), (directive_for bare n); try discriminate F; split; intros [z E]; try discriminate; eauto.
    + intros n l. specialize (F n). unfold usable, allowed. cbn [given]. destruct (directive_for u n) as [a|], (directive_for bare n) as [b|]; try discriminate F; [cbn [option_map] in F; injection F as F|tauto].
      split; intros (z & E & H); injection E as <-; [exists b; rewrite <- F|exists a; rewrite F]; auto.
  - intros [H _]. specialize (H (B "User")). assert (X : known None (B "User")).
    { apply H. left. cbn [given]. destruct (sc_types u) as [|[k1 x1] [|[k2 x2] l]]; try discriminate T. cbn [map fst] in T. assert (k1 = B "Node" /\ k2 = B "User") as [-> ->] by (split; congruence). exists x2. reflexivity. }
    destruct X as [[td X]|X]; [discriminate|]. vm_compute in X. intuition discriminate.
  - intros ->. apply Q. reflexivity.
Qed.
