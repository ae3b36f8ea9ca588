(** * PropCaller: C48, what becomes of the schema that the caller passes in. *)
From Coq Require Import Permutation.
From Verif Require Import Base AST Lexer Parser Walker WalkSpec Context Rules CtxProofs RuleProofs RuleSpec QueryProofs SdlProofs SchemaBuild BuildProofs Utils SchemaValidate SchemaSpec PropRules PropSdl PropBuild PropSchema Top TopProofs PropTop PropParse Samples.

(** ParseDoc never changes the schema. *)
Theorem C48_doc_untouched : forall fok i s, given_schema_after_doc fok i s = s.
Proof. intros fok i s. unfold given_schema_after_doc. destruct (parse fok i) as [d|m| |]; try reflexivity. apply (C43_read_only d (Some s)). Qed.
Print Assumptions C48_doc_untouched.
(** ParseSDLDoc leaves it alone unless the source parses and satisfies the rules for type system documents. *)
Theorem C48_failed_untouched : forall fok ord i s, (forall d, parse fok i = Doc d -> ~ sdl_valid d (Some s)) -> given_schema_after fok ord i s = s.
Proof.
  intros fok ord i s H. unfold given_schema_after. destruct (parse fok i) as [d|m| |]; try reflexivity. specialize (H d eq_refl). pose proof (sdl_errors_iff d (Some s)) as Q.
  destruct (C43_sdl_read_only d (Some s)) as (_ & E & C). rewrite C. destruct (c_errors (validate_sdl d (Some s))); [destruct H; apply Q; reflexivity|exact E].
Qed.
Print Assumptions C48_failed_untouched.
(** Otherwise it is overwritten by the new schema (C35), whether ParseSDLDoc then returns it or reports errors in it: *)
Theorem C48_overwritten : forall fok ord i s d, parse fok i = Doc d -> sdl_valid d (Some s) -> given_schema_after fok ord i s = built d (Some s) ord.
Proof.
  intros fok ord i s d E V. unfold given_schema_after, built. rewrite E. rewrite (proj2 (proj2 (C43_sdl_read_only d (Some s)))). apply sdl_errors_iff in V. rewrite V. reflexivity.
Qed.
Print Assumptions C48_overwritten.
(** the schema that is returned is the caller's own; *)
Theorem C48_returned_is_given : forall fok peq fuel ord od ot oi i s sch, (forall a b, peq a b = true -> a = b) -> (forall d, parse fok i = Doc d -> orders d (Some s) ord od ot oi) ->
  parse_sdl_doc fok peq fuel ord od ot oi i (Some s) = Returned sch -> given_schema_after fok ord i s = sch.
Proof.
  intros fok peq fuel ord od ot oi i s sch P O H. destruct (proj1 (C33_sdl_returned_iff fok peq ord od ot oi i (Some s) sch P O) (ex_intro _ fuel H)) as (d & E & V & -> & _).
  apply C48_overwritten; assumption.
Qed.
Print Assumptions C48_returned_is_given.
(** after which none of its types and directives is left. *)
Theorem C48_nothing_left : forall fok ord i s d, parse fok i = Doc d -> sdl_valid d (Some s) -> visits d ord ->
  (forall n t, mget n (sc_types s) = Some t -> mget n (sc_types (given_schema_after fok ord i s)) = None) /\
  (forall n x, mget n (sc_dirs s) = Some x -> mget n (sc_dirs (given_schema_after fok ord i s)) = None).
Proof.
  intros fok ord i s d E V O. rewrite (C48_overwritten fok ord i s d E V). assert (T : targets_defined d (Some s)) by (apply C34_valid_targets, sdl_errors_iff, V).
  split; [apply C35_existing_definitions_refuted; assumption|apply C35_existing_directives_refuted; assumption].
Qed.
Print Assumptions C48_nothing_left.
(** A schema that has a type called Query cannot be extended at all: whatever the document, the call does not return a schema. *)
Theorem C48_extension_never_succeeds : forall fok peq fuel ord od ot oi i s q sch, (forall a b, peq a b = true -> a = b) -> (forall d, parse fok i = Doc d -> orders d (Some s) ord od ot oi) ->
  mget (B "Query") (sc_types s) = Some q -> parse_sdl_doc fok peq fuel ord od ot oi i (Some s) <> Returned sch.
Proof.
  intros fok peq fuel ord od ot oi i s q sch P O Hq H. destruct (proj1 (C33_sdl_returned_iff fok peq ord od ot oi i (Some s) sch P O) (ex_intro _ fuel H)) as (d & E & V & -> & _ & _ & N).
  destruct (O d E) as (Ov & _). assert (T : targets_defined d (Some s)) by (apply C34_valid_targets, sdl_errors_iff, V). destruct (C35_actual d s ord Ov T) as (A1 & _ & A2 & _).
  apply (N (EMsg (B "Query root type must be provided."))). apply vi_query_missing. intros x (t & Et & Ex). rewrite A2 in Et. injection Et as <-. pose proof (C35_existing_definitions_refuted d s ord Ov T _ _ Hq) as Z.
  assert (Ex' : mget (B "Query") (sc_types (built d (Some s) ord)) = Some x) by exact Ex. rewrite Z in Ex'. discriminate.
Qed.
Print Assumptions C48_extension_never_succeeds.
(** So the ideal - when errors are reported the given schema is as it was - fails. *)
Definition old_schema : schema := mkSchema None (Some (TNamed (B "Query") false)) None None [] [(B "Query", mkTd KObject [] (B "Query") [] [] [mkFd [] (B "f") [] (TNamed (B "ID") false) []] [] [] [])].
Theorem C48_atomic_refuted : exists i s es, parse_sdl_with 9 i (Some s) = Reported es /\ map message es = [B "The type of T.f must be Output Type."; B "Query root type must be provided."] /\
  mem (B "Query") (sc_types s) = true /\ mem (B "Query") (sc_types (given_schema_after anyfloat (ord_of (src i) (Some s)) (B i) s)) = false.
Proof. exists "type T {f:ID}"%string, old_schema. eexists. split; [vm_compute; reflexivity|]. split; [vm_compute; reflexivity|]. split; vm_compute; reflexivity. Qed.
Print Assumptions C48_atomic_refuted.

(** The built-in types ID and String, which all the schemas share, are never modified: an entry of the given schema that is one of
    them is the same after the extensions have been merged. *)
Lemma scalar_fixed n xs : fold_left merge_ext xs (scalar_type n) = scalar_type n.
Proof. induction xs as [|x xs IH]; [reflexivity|]. cbn [fold_left]. assert (E : merge_ext (scalar_type n) x = scalar_type n) by (unfold merge_ext; destruct (t_kind x); reflexivity). rewrite E. exact IH. Qed.
Theorem C48_builtins_shared : forall ord c n m, mget n (sc_types (c_schema c)) = Some (scalar_type m) -> mget n (sc_types (c_schema (merge_types ord c))) = Some (scalar_type m).
Proof.
  induction ord as [|[k xs] ord IH]; intros c n m H; [exact H|]. cbn [merge_types]. destruct (c_sdl c) as [s|] eqn:Es; [|exact H]. destruct (ctx_type c s k) as [t|] eqn:Et; [|exact H]. apply IH.
  unfold put_type. destruct (sd_extending s && mem k (sc_types (c_schema c))) eqn:Eb; [|exact H]. cbn [c_schema set_schema with_sctypes sc_types]. rewrite mget_mset. destruct (beqb_spec n k) as [->|]; [|exact H].
  apply andb_true_iff in Eb. destruct Eb as [Ee _]. unfold ctx_type in Et. rewrite Ee, H in Et. injection Et as <-. rewrite scalar_fixed. reflexivity.
Qed.
Print Assumptions C48_builtins_shared.
Example C48_nonvacuous : let s := mkSchema None (Some (TNamed (B "Q") false)) None None [(B "d", skip_directive)] [(B "Q", scalar_type (B "Q")); (B "ID", scalar_type (B "ID"))] in
  (exists d, parse anyfloat (B "type T {f:ID} extend scalar ID @d(if:true)") = Doc d /\ c_errors (validate_sdl d (Some s)) <> []) /\
  given_schema_after anyfloat [] (B "type T {f:Unknown}") s = s /\
  (exists d, parse anyfloat (B "type T {f:ID} type Query {t:T}") = Doc d /\ sdl_valid d (Some s)) /\
  map fst (sc_types (given_schema_after anyfloat [] (B "type T {f:ID} type Query {t:T}") s)) = [B "T"; B "Query"] /\
  (exists es, parse_sdl_with 9 "type T {f:ID} type Query {t:T}" (Some s) = Reported es).
Proof.
  cbv zeta. split; [eexists; split; [vm_compute; reflexivity|vm_compute; discriminate]|]. split; [vm_compute; reflexivity|]. split; [eexists; split; [vm_compute; reflexivity|apply sdl_errors_iff; vm_compute; reflexivity]|].
  split; [vm_compute; reflexivity|]. eexists. vm_compute. reflexivity.
Qed.
