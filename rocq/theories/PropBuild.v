(** * PropBuild: C34, C35 — the schema that BuildSchema makes of a validated type system document. *)
From Coq Require Import Permutation.
From Verif Require Import Base AST Walker WalkSpec Context Rules CtxProofs RuleProofs RuleSpec QueryProofs SdlProofs SchemaBuild BuildProofs PropRules PropSdl Samples.

(** ** Specification vocabulary *)
Definition extensions_of (doc : document) (n : bytes) : list tydef := filter (fun x => if bytes_dec n (t_name x) then true else false) (type_extensions doc).
Definition schema_extensions (doc : document) : list schemadef := flat_map (fun d => match def_body d with XSchema x => [x] | _ => [] end) (doc_defs doc).
(** [ord] is an order in which the map of extended types can be visited: one entry per extended type, with its extensions in document order. *)
Definition visits (doc : document) (ord : emap (list tydef)) : Prop :=
  NoDup (map fst ord) /\ forall n xs, In (n, xs) ord <-> xs = extensions_of doc n /\ xs <> [].
(** Validation found the definition of every extended type (C30). *)
Definition targets_defined (doc : document) (s : option schema) : Prop := forall x, In x (type_extensions doc) -> type_of doc s (t_name x) <> None.
(** the contents of a list after the extensions' lists have been joined to it *)
Definition plus {X} (base : list X) (exts : list (list X)) : list X := match base with [] => [] | _ => base ++ List.concat exts end.
Definition of_kinds (ks : list tkindT) (xs : list tydef) : list tydef := filter (fun x => existsb (tkind_eqb (t_kind x)) ks) xs.
Definition merged (t : tydef) (xs : list tydef) : tydef :=
  mkTd (t_kind t) (t_desc t) (t_name t)
    (plus (t_impl t) (map t_impl (of_kinds [KObject] xs))) (plus (t_dirs t) (map t_dirs xs)) (plus (t_fields t) (map t_fields (of_kinds [KObject; KInterface] xs)))
    (plus (t_members t) (map t_members (of_kinds [KUnion] xs))) (plus (t_values t) (map t_values (of_kinds [KEnum] xs))) (plus (t_inputs t) (map t_inputs (of_kinds [KInputObject] xs))).
(** the schema after BuildSchema (also what the caller's schema has become, since the code works on it) *)
Definition built (doc : document) (s : option schema) (ord : emap (list tydef)) : schema := c_schema (build_schema ord (validate_sdl doc s)).
(** the first definition of a name in the document *)
Definition defined_type (doc : document) (n : bytes) : option tydef := find (fun d => if bytes_dec n (t_name d) then true else false) (type_definitions doc).
Definition defined_directive (doc : document) (n : bytes) : option dirdef := find (fun d => if bytes_dec n (dd_name d) then true else false) (directive_definitions doc).
Definition builtin_type (n : bytes) : option tydef := mget n [(B "ID", scalar_type (B "ID")); (B "String", scalar_type (B "String"))].
(** the last operation type of a kind *)
Definition root_of (k : opkind) (l : list optype) : option ty := option_map ot_type (find (fun o => if opkind_dec k (ot_op o) then true else false) (rev l)).

(** ** Lemmas *)
Lemma joined_plus {X} (b : list X) e es : plus (joined b e) es = plus b (e :: es).
Proof. destruct b as [|x b]; [reflexivity|]. cbn. rewrite <- app_assoc. reflexivity. Qed.
Lemma plus_nil {X} (b : list X) : plus b [] = b.
Proof. destruct b; [reflexivity|]. cbn. rewrite app_nil_r. reflexivity. Qed.
Lemma merged_fold xs : forall t, fold_left merge_ext xs t = merged t xs.
Proof.
  induction xs as [|x xs IH]; intros t; cbn [fold_left].
  - unfold merged. cbn. rewrite !plus_nil. destruct t; reflexivity.
  - rewrite IH. unfold merged, of_kinds. cbn [filter existsb]. unfold merge_ext. destruct (t_kind x); cbn [tkind_eqb orb map t_kind t_desc t_name t_impl t_dirs t_fields t_members t_values t_inputs with_tdirs with_fields with_impl with_members with_values with_inputs];
      rewrite !joined_plus; reflexivity.
Qed.
Record validated (doc : document) (s : option schema) (sd : sdl) : Prop := mkVal {
  va_sdl : c_sdl (validate_sdl doc s) = Some sd; va_schema : c_schema (validate_sdl doc s) = given s; va_crash : c_crash (validate_sdl doc s) = false;
  va_ext : sd_extending sd = match s with None => false | Some _ => true end;
  va_types : forall n, mget n (sd_types sd) = if mem n (sc_types (given s)) then None else defined_type doc n;
  va_dirs : forall n, mget n (sd_dirs sd) = if mem n (sc_dirs (given s)) then None else defined_directive doc n;
  va_def : sd_schema sd = match s with None => hd_error (schema_definitions doc) | Some _ => None end;
  va_sexts : sd_schemaexts sd = schema_extensions doc;
  va_exts : visits doc (sd_exts sd) }.
Lemma validated_ex doc s : exists sd, validated doc s sd.
Proof.
  destruct (sdl_ctx doc s) as (es & os & E). destruct (prepare_spec doc s) as (sd & H). destruct (mark_all_keep os (new_sdl_context doc s)) as (s' & _ & E1 & E2). rewrite (pr_sdl _ _ _ _ _ _ H) in E2.
  destruct E2 as (s2 & -> & A1 & A2 & A3 & A4 & A5 & A6). exists s2. assert (S : schema_extensions doc = xss (doc_defs doc)) by reflexivity.
  constructor; cbn [c_sdl c_schema c_crash set_errors set_sdl]; rewrite ?E, ?E1; cbn [c_sdl c_schema c_crash set_errors set_sdl].
  - reflexivity.
  - apply (pr_schema _ _ _ _ _ _ H).
  - apply (pr_crash _ _ _ _ _ _ H).
  - rewrite A6. apply (pr_ext _ _ _ _ _ _ H).
  - intros n. rewrite A2, (pr_types _ _ _ _ _ _ H). unfold first_type, defined_type. destruct (mem n _); [reflexivity|]. apply find_ext. intros; apply beqb_dec.
  - intros n. rewrite A1, (pr_dirs _ _ _ _ _ _ H). unfold first_dir, defined_directive. destruct (mem n _); [reflexivity|]. apply find_ext. intros; apply beqb_dec.
  - rewrite A4, (pr_schemadef _ _ _ _ _ _ H). destruct s; reflexivity.
  - rewrite A5, S. apply (pr_schemaexts _ _ _ _ _ _ H).
  - split; [rewrite A3; apply (pr_exts_nodup _ _ _ _ _ _ H)|]. intros n xs. rewrite A3. pose proof (pr_exts _ _ _ _ _ _ H n) as Hn.
    assert (X : extensions_of doc n = filter (fun t => beqb n (t_name t)) (xts (doc_defs doc))) by (apply filter_ext; intros; symmetry; apply beqb_dec). rewrite X. split.
    + intros Hi. apply (In_mget _ _ _ (pr_exts_nodup _ _ _ _ _ _ H)) in Hi. rewrite Hn in Hi. destruct (filter _ _); [discriminate|]. injection Hi as <-. split; [reflexivity|discriminate].
    + intros [E3 E4]. apply mget_In. rewrite Hn, <- E3. destruct xs; [congruence|reflexivity].
Qed.
Lemma visits_mget doc ord n : visits doc ord -> mget n ord = match extensions_of doc n with [] => None | l => Some l end.
Proof.
  intros [N H]. destruct (mget n ord) as [xs|] eqn:E.
  - apply mget_In in E. apply H in E. destruct E as [E Hn]. rewrite <- E. destruct xs; [congruence|reflexivity].
  - destruct (extensions_of doc n) as [|x l] eqn:El; [reflexivity|]. assert (X : In (n, x :: l) ord) by (apply H; split; [symmetry; exact El|discriminate]). apply (In_mget _ _ _ N) in X. congruence.
Qed.
Lemma merged_nil t : merged t [] = t. Proof. rewrite <- merged_fold. reflexivity. Qed.
Lemma visits_upd doc ord n (o : option tydef) : visits doc ord -> match mget n ord with Some xs => option_map (fold_left merge_ext xs) o | None => o end = option_map (fun t => merged t (extensions_of doc n)) o.
Proof.
  intros V. rewrite (visits_mget doc ord n V). destruct (extensions_of doc n) as [|x l].
  - destruct o; [|reflexivity]. cbn. rewrite merged_nil. reflexivity.
  - destruct o; [|reflexivity]. cbn [option_map]. rewrite merged_fold. reflexivity.
Qed.
Lemma built_after doc s ord : visits doc ord -> targets_defined doc s -> exists sd, validated doc s sd /\ after (validate_sdl doc s) (build_schema ord (validate_sdl doc s)) sd ord.
Proof.
  intros V T. destruct (validated_ex doc s) as (sd & H). exists sd. split; [exact H|]. apply build_after; [apply (va_sdl _ _ _ H)|apply V|].
  intros n xs Hn. destruct V as [_ V]. apply V in Hn. destruct Hn as [-> Hn]. destruct (extensions_of doc n) as [|x l] eqn:E; [congruence|].
  assert (Hx : In x (extensions_of doc n)) by (rewrite E; left; reflexivity). apply filter_In in Hx. destruct Hx as [Hx Hb]. destruct (bytes_dec n (t_name x)) as [->|]; [|discriminate].
  specialize (T x Hx). unfold ctx_type. rewrite (va_ext _ _ _ H), (va_schema _ _ _ H), (va_types _ _ _ H). unfold type_of, defined_type, mem in *. destruct s as [s|]; cbn [given] in *; [|exact T].
  destruct (mget (t_name x) (sc_types s)); [discriminate|exact T].
Qed.
Lemma plus_fold {X} (f : schemadef -> list X) xs : forall b, fold_left (fun b x => joined b (f x)) xs b = plus b (map f xs).
Proof. induction xs as [|x xs IH]; intros b; cbn [fold_left map]; [rewrite plus_nil; reflexivity|]. rewrite IH, joined_plus. reflexivity. Qed.
Lemma schema_fold xs : forall d, fold_left (fun d x => mkSd (joined (s_dirs d) (s_dirs x)) (joined (s_ops d) (s_ops x))) xs d = mkSd (plus (s_dirs d) (map s_dirs xs)) (plus (s_ops d) (map s_ops xs)).
Proof. induction xs as [|x xs IH]; intros d; cbn [fold_left map]; [rewrite !plus_nil; destruct d; reflexivity|]. rewrite IH. cbn [s_dirs s_ops]. rewrite !joined_plus. reflexivity. Qed.
Lemma roots_fold l : forall sch, sc_query (fold_left set_root l sch) = match root_of Query l with Some t => Some t | None => sc_query sch end /\
  sc_mutation (fold_left set_root l sch) = match root_of Mutation l with Some t => Some t | None => sc_mutation sch end /\
  sc_subscription (fold_left set_root l sch) = match root_of Subscription l with Some t => Some t | None => sc_subscription sch end.
Proof.
  unfold root_of. induction l as [|o l IH] using rev_ind; intros sch; [auto|]. rewrite fold_left_app. cbn [fold_left]. rewrite rev_app_distr. cbn [rev app find]. destruct (IH sch) as (A1 & A2 & A3). unfold set_root. destruct (ot_op o); cbn; auto.
Qed.

(** ** C34 *)
(** Every order of the map that the context holds is one of [visits]. *)
Theorem C34_map_orders : forall doc s, exists sd, c_sdl (validate_sdl doc s) = Some sd /\ forall ord, Permutation (sd_exts sd) ord -> visits doc ord.
Proof.
  intros doc s. destruct (validated_ex doc s) as (sd & H). exists sd. split; [apply (va_sdl _ _ _ H)|]. intros ord P. destruct (va_exts _ _ _ H) as [N V]. split.
  - eapply Permutation_NoDup; [apply Permutation_map, P|exact N].
  - intros n xs. rewrite <- V. split; apply Permutation_in; [symmetry|]; exact P.
Qed.
Print Assumptions C34_map_orders.
Theorem C34_types : forall doc ord, visits doc ord -> targets_defined doc None -> forall n,
  mget n (sc_types (built doc None ord)) =
  match defined_type doc n with Some t => Some (merged t (extensions_of doc n)) | None => builtin_type n end.
Proof.
  intros doc ord V T n. destruct (built_after doc None ord V T) as (sd & H & A). unfold built. rewrite (af_types _ _ _ _ A). cbv zeta. rewrite (visits_upd doc ord n _ V), (va_ext _ _ _ H), (va_types _ _ _ H).
  cbn [given mem mget sc_types empty_schema]. destruct (defined_type doc n); reflexivity.
Qed.
Print Assumptions C34_types.
Theorem C34_directives : forall doc ord, visits doc ord -> targets_defined doc None -> forall n,
  mget n (sc_dirs (built doc None ord)) = match defined_directive doc n with Some d => Some d | None => builtin_directive n end.
Proof.
  intros doc ord V T n. destruct (built_after doc None ord V T) as (sd & H & A). unfold built. rewrite (af_dirs _ _ _ _ A). rewrite (va_ext _ _ _ H), (va_dirs _ _ _ H). cbn [given mem mget sc_dirs empty_schema].
  destruct (defined_directive doc n); reflexivity.
Qed.
Print Assumptions C34_directives.
(** The schema definition: the document's with the schema extensions joined, or the default one (then extensions are dropped). *)
Definition effective_schema (doc : document) : schemadef :=
  match schema_definitions doc with
  | [] => mkSd [] [mkOt Query (TNamed (B "Query") false)]
  | d :: _ => mkSd (plus (s_dirs d) (map s_dirs (schema_extensions doc))) (plus (s_ops d) (map s_ops (schema_extensions doc)))
  end.
Theorem C34_roots : forall doc ord, visits doc ord -> targets_defined doc None ->
  let r := built doc None ord in let ops := s_ops (effective_schema doc) in
  sc_def r = Some (effective_schema doc) /\ sc_query r = root_of Query ops /\ sc_mutation r = root_of Mutation ops /\ sc_subscription r = root_of Subscription ops.
Proof.
  intros doc ord V T r ops. destruct (built_after doc None ord V T) as (sd & H & A). destruct (af_def _ _ _ _ A) as (A1 & A2 & A3 & A4).
  assert (E : match sd_schema sd with Some d => fold_left (fun d x => mkSd (joined (s_dirs d) (s_dirs x)) (joined (s_ops d) (s_ops x))) (sd_schemaexts sd) d | None => default_schema end = effective_schema doc).
  { rewrite (va_def _ _ _ H), (va_sexts _ _ _ H). unfold effective_schema. destruct (schema_definitions doc); cbn [hd_error]; [reflexivity|apply schema_fold]. }
  cbv zeta in A1, A2, A3, A4. rewrite E in A1, A2, A3, A4. unfold r, built. split; [exact A1|].
  destruct (roots_fold (s_ops (effective_schema doc)) (c_schema (validate_sdl doc None))) as (R1 & R2 & R3). rewrite A2, A3, A4, R1, R2, R3, (va_schema _ _ _ H). cbn [given sc_query sc_mutation sc_subscription empty_schema]. fold ops.
  split; [destruct (root_of Query ops); reflexivity|]. split; [destruct (root_of Mutation ops); reflexivity|destruct (root_of Subscription ops); reflexivity].
Qed.
Print Assumptions C34_roots.
(** An order-independent, panic-free result, with the errors unchanged. *)
Theorem C34_order_independent : forall doc s ord ord', visits doc ord -> visits doc ord' -> targets_defined doc s ->
  (forall n, mget n (sc_types (built doc s ord)) = mget n (sc_types (built doc s ord'))) /\ (forall n, mget n (sc_dirs (built doc s ord)) = mget n (sc_dirs (built doc s ord'))) /\
  sc_def (built doc s ord) = sc_def (built doc s ord') /\ sc_query (built doc s ord) = sc_query (built doc s ord') /\ sc_mutation (built doc s ord) = sc_mutation (built doc s ord') /\ sc_subscription (built doc s ord) = sc_subscription (built doc s ord').
Proof.
  intros doc s ord ord' V V' T. destruct (built_after doc s ord V T) as (sd & H & A). destruct (built_after doc s ord' V' T) as (sd' & H' & A'). pose proof (va_sdl _ _ _ H) as E1. rewrite (va_sdl _ _ _ H') in E1. injection E1 as ->.
  unfold built. split; [|split].
  - intros n. rewrite (af_types _ _ _ _ A), (af_types _ _ _ _ A'). cbv zeta. rewrite (visits_upd doc ord n _ V), (visits_upd doc ord' n _ V'). reflexivity.
  - intros n. rewrite (af_dirs _ _ _ _ A), (af_dirs _ _ _ _ A'). reflexivity.
  - destruct (af_def _ _ _ _ A) as (A1 & A2 & A3 & A4). destruct (af_def _ _ _ _ A') as (B1 & B2 & B3 & B4). split; [congruence|]. split; [congruence|]. split; congruence.
Qed.
Print Assumptions C34_order_independent.
Theorem C34_no_crash : forall doc s ord, visits doc ord -> targets_defined doc s -> c_crash (build_schema ord (validate_sdl doc s)) = false /\ c_errors (build_schema ord (validate_sdl doc s)) = c_errors (validate_sdl doc s).
Proof. intros doc s ord V T. destruct (built_after doc s ord V T) as (sd & H & A). rewrite (af_crash _ _ _ _ A), (af_errors _ _ _ _ A), (va_crash _ _ _ H). auto. Qed.
Print Assumptions C34_no_crash.
(** A validated document meets the hypothesis. *)
Theorem C34_valid_targets : forall doc s, c_errors (validate_sdl doc s) = [] -> targets_defined doc s /\ forall x def, In x (type_extensions doc) -> type_of doc s (t_name x) = Some def -> t_kind x = t_kind def.
Proof.
  intros doc s E. assert (R : reported is_ext_err (validate_sdl doc s) = []) by (unfold reported; rewrite E; reflexivity). rewrite C30_none_iff in R. split.
  - intros x Hx. destruct (R x Hx) as (def & Ed & _). congruence.
  - intros x def Hx Ed. destruct (R x Hx) as (def' & Ed' & K). congruence.
Qed.
Print Assumptions C34_valid_targets.
(** Each extended list is the definition's followed by the extensions' in order — unless the definition's is empty. *)
Definition complete {X} (base : list X) (exts : list (list X)) : Prop := base <> [] \/ List.concat exts = [].
Lemma plus_complete {X} (b : list X) es : complete b es -> plus b es = b ++ List.concat es.
Proof. intros [H|H]; destruct b; cbn; rewrite ?H; auto. congruence. Qed.
Theorem C34_definition_then_extensions : forall t xs, (forall x, In x xs -> t_kind x = t_kind t) ->
  (complete (t_dirs t) (map t_dirs xs) -> t_dirs (merged t xs) = t_dirs t ++ flat_map t_dirs xs) /\
  (t_kind t = KObject -> complete (t_fields t) (map t_fields xs) -> t_fields (merged t xs) = t_fields t ++ flat_map t_fields xs) /\
  (t_kind t = KObject -> complete (t_impl t) (map t_impl xs) -> t_impl (merged t xs) = t_impl t ++ flat_map t_impl xs) /\
  (t_kind t = KInterface -> complete (t_fields t) (map t_fields xs) -> t_fields (merged t xs) = t_fields t ++ flat_map t_fields xs) /\
  (t_kind t = KUnion -> complete (t_members t) (map t_members xs) -> t_members (merged t xs) = t_members t ++ flat_map t_members xs) /\
  (t_kind t = KEnum -> complete (t_values t) (map t_values xs) -> t_values (merged t xs) = t_values t ++ flat_map t_values xs) /\
  (t_kind t = KInputObject -> complete (t_inputs t) (map t_inputs xs) -> t_inputs (merged t xs) = t_inputs t ++ flat_map t_inputs xs) /\
  t_name (merged t xs) = t_name t /\ t_kind (merged t xs) = t_kind t /\ t_desc (merged t xs) = t_desc t.
Proof.
  intros t xs K.
  assert (F : forall ks k, t_kind t = k -> existsb (tkind_eqb k) ks = true -> of_kinds ks xs = xs).
  { intros ks k E1 E2. unfold of_kinds. clear - K E1 E2. induction xs as [|x xs IH]; [reflexivity|]. cbn. rewrite (K x (or_introl eq_refl)), E1, E2. f_equal. apply IH. intros y Hy. apply K. right. exact Hy. }
  repeat split; cbn [merged t_dirs t_fields t_impl t_members t_values t_inputs].
  - intros C. rewrite plus_complete by exact C. rewrite flat_map_concat_map. reflexivity.
  - intros E C. rewrite (F _ _ E) by reflexivity. rewrite plus_complete by exact C. rewrite flat_map_concat_map. reflexivity.
  - intros E C. rewrite (F _ _ E) by reflexivity. rewrite plus_complete by exact C. rewrite flat_map_concat_map. reflexivity.
  - intros E C. rewrite (F _ _ E) by reflexivity. rewrite plus_complete by exact C. rewrite flat_map_concat_map. reflexivity.
  - intros E C. rewrite (F _ _ E) by reflexivity. rewrite plus_complete by exact C. rewrite flat_map_concat_map. reflexivity.
  - intros E C. rewrite (F _ _ E) by reflexivity. rewrite plus_complete by exact C. rewrite flat_map_concat_map. reflexivity.
  - intros E C. rewrite (F _ _ E) by reflexivity. rewrite plus_complete by exact C. rewrite flat_map_concat_map. reflexivity.
Qed.
Print Assumptions C34_definition_then_extensions.
Definition ord_of (doc : document) (s : option schema) : emap (list tydef) := match c_sdl (validate_sdl doc s) with Some sd => sd_exts sd | None => [] end.
Lemma ord_of_visits doc s : visits doc (ord_of doc s).
Proof. destruct (C34_map_orders doc s) as (sd & E & H). unfold ord_of. rewrite E. apply H. reflexivity. Qed.
(** The two ways extensions are lost. *)
Theorem C34_empty_base_refuted : exists doc t, c_errors (validate_sdl doc None) = [] /\ mget (B "A") (sc_types (built doc None (ord_of doc None))) = Some t /\
  t_fields t = [] /\ exists x, extensions_of doc (B "A") = [x] /\ t_fields x <> [].
Proof.
  set (x := mkTd KObject [] (B "A") [] [] [mkFd [] (B "f") [] (TNamed (B "ID") false) []] [] [] []).
  exists (src "type A extend type A {f:ID}"), (mkTd KObject [] (B "A") [] [] [] [] [] []). split; [vm_compute; reflexivity|]. split; [vm_compute; reflexivity|]. split; [reflexivity|]. exists x. split; [vm_compute; reflexivity|discriminate].
Qed.
Print Assumptions C34_empty_base_refuted.
Theorem C34_schema_extension_alone_refuted : exists doc, c_errors (validate_sdl doc None) = [] /\ map (fun x => map ot_op (s_ops x)) (schema_extensions doc) = [[Mutation]] /\
  sc_mutation (built doc None (ord_of doc None)) = None.
Proof. exists (src "type Query {f:ID} type M {g:ID} extend schema {mutation:M}"). repeat split; vm_compute; reflexivity. Qed.
Print Assumptions C34_schema_extension_alone_refuted.
Example C34_nonvacuous : let doc := src "type Query {f:ID} extend type Query {g:ID} schema {query:Query} enum E {X} extend schema {mutation:Query} extend enum E {Y} extend type Query {h:ID} directive @d on OBJECT" in
  c_errors (validate_sdl doc None) = [] /\ visits doc (rev (ord_of doc None)) /\ targets_defined doc None /\
  option_map (fun t => map fd_name (t_fields t)) (mget (B "Query") (sc_types (built doc None (rev (ord_of doc None))))) = Some [B "f"; B "g"; B "h"] /\
  option_map (fun t => map ev_name (t_values t)) (mget (B "E") (sc_types (built doc None (ord_of doc None)))) = Some [B "X"; B "Y"] /\
  sc_mutation (built doc None (ord_of doc None)) = Some (TNamed (B "Query") false) /\ mem (B "String") (sc_types (built doc None (ord_of doc None))) = true /\
  map fst (sc_dirs (built doc None (ord_of doc None))) = [B "d"; B "skip"; B "include"; B "deprecated"].
Proof.
  set (doc := src _). assert (E : c_errors (validate_sdl doc None) = []) by (vm_compute; reflexivity). cbv zeta. split; [exact E|]. split.
  - destruct (C34_map_orders doc None) as (sd & Es & H). apply H. unfold ord_of. rewrite Es. apply Permutation_rev.
  - split; [apply C34_valid_targets, E|]. repeat split; vm_compute; reflexivity.
Qed.

(** ** C35: extending an existing schema *)
(** What the code does: only the document's own types and directives are in the result (with their extensions), and the query root is
    the type named Query; the mutation and subscription roots are kept. *)
Theorem C35_actual : forall doc s ord, visits doc ord -> targets_defined doc (Some s) -> let r := built doc (Some s) ord in
  (forall n, mget n (sc_types r) = match mget n (sc_types s) with Some _ => None | None => option_map (fun t => merged t (extensions_of doc n)) (defined_type doc n) end) /\
  (forall n, mget n (sc_dirs r) = match mget n (sc_dirs s) with Some _ => None | None => defined_directive doc n end) /\
  sc_query r = Some (TNamed (B "Query") false) /\ sc_mutation r = sc_mutation s /\ sc_subscription r = sc_subscription s.
Proof.
  intros doc s ord V T r. destruct (built_after doc (Some s) ord V T) as (sd & H & A). unfold r, built. split; [|split].
  - intros n. rewrite (af_types _ _ _ _ A). cbv zeta. rewrite (visits_upd doc ord n _ V), (va_ext _ _ _ H), (va_types _ _ _ H), (va_schema _ _ _ H). cbn [given]. unfold mem. destruct (mget n (sc_types s)); reflexivity.
  - intros n. rewrite (af_dirs _ _ _ _ A), (va_ext _ _ _ H), (va_dirs _ _ _ H). cbn [given]. unfold mem. destruct (mget n (sc_dirs s)); reflexivity.
  - destruct (af_def _ _ _ _ A) as (_ & A2 & A3 & A4). cbv zeta in A2, A3, A4. rewrite (va_def _ _ _ H) in A2, A3, A4. rewrite A2, A3, A4, (va_schema _ _ _ H). cbn. auto.
Qed.
Print Assumptions C35_actual.
(** So no type and no directive of the existing schema is in the result, whatever the document; *)
Theorem C35_existing_definitions_refuted : forall doc s ord, visits doc ord -> targets_defined doc (Some s) -> forall n t, mget n (sc_types s) = Some t -> mget n (sc_types (built doc (Some s) ord)) = None.
Proof. intros doc s ord V T n t E. destruct (C35_actual doc s ord V T) as (A & _). rewrite A, E. reflexivity. Qed.
Print Assumptions C35_existing_definitions_refuted.
Theorem C35_existing_directives_refuted : forall doc s ord, visits doc ord -> targets_defined doc (Some s) -> forall n d, mget n (sc_dirs s) = Some d -> mget n (sc_dirs (built doc (Some s) ord)) = None.
Proof. intros doc s ord V T n d E. destruct (C35_actual doc s ord V T) as (_ & A & _). rewrite A, E. reflexivity. Qed.
Print Assumptions C35_existing_directives_refuted.
Lemma targets_check doc s : forallb (fun x => match type_of doc s (t_name x) with Some _ => true | None => false end) (type_extensions doc) = true -> targets_defined doc s.
Proof. intros H x Hx. rewrite forallb_forall in H. specialize (H x Hx). destruct (type_of doc s (t_name x)); congruence. Qed.
Example C35_nonvacuous : let s := mkSchema None (Some (TNamed (B "Q") false)) (Some (TNamed (B "M") false)) None [(B "d", skip_directive)] [(B "Q", scalar_type (B "Q"))] in
  let doc := src "type T {f:ID} extend type T {g:ID} extend scalar Q @d" in
  visits doc (ord_of doc (Some s)) /\ targets_defined doc (Some s) /\ map fst (sc_types (built doc (Some s) (ord_of doc (Some s)))) = [B "T"] /\ sc_dirs (built doc (Some s) (ord_of doc (Some s))) = [] /\
  sc_query (built doc (Some s) (ord_of doc (Some s))) = Some (TNamed (B "Query") false).
Proof.
  intros s doc. split; [apply ord_of_visits|]. split; [|repeat split; vm_compute; reflexivity].
  apply targets_check. vm_compute. reflexivity.
Qed.
