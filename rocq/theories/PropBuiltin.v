(** * PropBuiltin: theorem C64 (what is built in). *)
From Coq Require Import Permutation.
From Verif Require Import Base AST Parser Walker WalkSpec Context Rules CtxProofs RuleProofs RuleSpec QueryProofs PropRules SdlProofs PropSdl SchemaBuild BuildProofs PropBuild.
From Verif Require Import PropParse SchemaSpec Utils SchemaValidate ValidateProofs SchemaProofs PropSchema Top TopProofs PropTop Utf8 LexSpec LexMain Grammar GrammarProps GrammarFrame PropLex PropConcat Rearrange PropOrder Samples.
Import AST.

(** ** Specification: the text of what is built in *)
Definition prelude : string := "scalar ID
scalar String
""Directs the executor to skip this field or fragment when the `if` argument is true.""
directive @skip(""Skipped when true."" if: Boolean!) on FIELD | FRAGMENT_SPREAD | INLINE_FRAGMENT
""Directs the executor to include this field or fragment only when the `if` argument is true.""
directive @include(""Included when true."" if: Boolean!) on FIELD | FRAGMENT_SPREAD | INLINE_FRAGMENT
""Marks an element of a GraphQL schema as no longer supported.""
directive @deprecated(""Explains why this element was deprecated, usually also including a suggestion for how to access supported similar data. Formatted using the Markdown syntax (as specified by [CommonMark](https://commonmark.org/)."" reason: String = ""No longer supported"") on FIELD_DEFINITION | ENUM_VALUE".
Definition builtin_types := map B ["ID"; "String"]%string.
Definition builtin_directives := map B ["skip"; "include"; "deprecated"]%string.
(** [d'] is [d] with the prelude before it. *)
Definition preceded (fok : bytes -> bool) (d d' : document) : Prop :=
  exists p, parse fok (B prelude) = Doc p /\ map def_body (doc_defs d') = map def_body (doc_defs p) ++ map def_body (doc_defs d).
(** [d] says nothing itself about what is built in. *)
Record own (d : document) : Prop := mkOwn {
  ow_types : forall t, In t (type_definitions d) -> ~ In (t_name t) builtin_types;
  ow_extensions : forall t, In t (type_extensions d) -> ~ In (t_name t) builtin_types;
  ow_directives : forall x, In x (directive_definitions d) -> ~ In (dd_name x) builtin_directives }.

(** ** Proofs *)
Definition pre : list body := [DType (scalar_type (B "ID")); DType (scalar_type (B "String")); DDir skip_directive; DDir include_directive; DDir deprecated_directive].
Lemma prelude_parses fok : exists p, parse fok (B prelude) = Doc p /\ map def_body (doc_defs p) = pre.
Proof. eexists. split; vm_compute; reflexivity. Qed.
Lemma preceded_pre fok d d' : preceded fok d d' -> bodies d' = pre ++ bodies d.
Proof. intros (p & E & H). destruct (prelude_parses fok) as (q & E' & H'). rewrite E in E'. injection E' as <-. rewrite H' in H. exact H. Qed.
Section Pre.
Context (d d' : document) (E : bodies d' = pre ++ bodies d).
Lemma pre_nodes {Y} (f : node -> list Y) : (forall n, outer n = true -> f n = []) -> flat_map f (nodes d') = flat_map (fun b => flat_map f (preorder (tSpecific b))) pre ++ flat_map f (nodes d).
Proof. intros H. rewrite !(flat_nodes f _ H), E, flat_map_app. reflexivity. Qed.
Lemma pre_bodies {Y} (f : body -> list Y) : flat_map (fun q => f (def_body q)) (doc_defs d') = flat_map f pre ++ flat_map (fun q => f (def_body q)) (doc_defs d).
Proof. rewrite !(flat_bodies f), E, flat_map_app. reflexivity. Qed.
Ltac pnodal := unfold type_refs, applications, directive_sites, argument_sites, object_sites, defined_names; rewrite pre_nodes; [reflexivity|intros n Hn; destruct n; try reflexivity; discriminate Hn].
Lemma pre_refs : type_refs d' = map B ["Boolean"; "Boolean"; "String"]%string ++ type_refs d. Proof. pnodal. Qed.
Lemma pre_applications : applications d' = applications d. Proof. pnodal. Qed.
Lemma pre_dsites : directive_sites d' = directive_sites d. Proof. pnodal. Qed.
Lemma pre_asites : argument_sites d' = [[B "if"]; [B "if"]; [B "reason"]] ++ argument_sites d. Proof. pnodal. Qed.
Lemma pre_osites : object_sites d' = object_sites d. Proof. pnodal. Qed.
Lemma pre_names : defined_names d' = map B ["ID"; "String"; "skip"; "if"; "include"; "if"; "deprecated"; "reason"]%string ++ defined_names d. Proof. pnodal. Qed.
Lemma pre_types : type_definitions d' = map scalar_type builtin_types ++ type_definitions d.
Proof. unfold type_definitions. rewrite (pre_bodies (fun b => match b with DType t => [t] | _ => [] end)). reflexivity. Qed.
Lemma pre_typeexts : type_extensions d' = type_extensions d.
Proof. unfold type_extensions. rewrite (pre_bodies (fun b => match b with XType t => [t] | _ => [] end)). reflexivity. Qed.
Lemma pre_directives : directive_definitions d' = [skip_directive; include_directive; deprecated_directive] ++ directive_definitions d.
Proof. unfold directive_definitions. rewrite (pre_bodies (fun b => match b with DDir t => [t] | _ => [] end)). reflexivity. Qed.
Lemma pre_schemas : schema_definitions d' = schema_definitions d.
Proof. unfold schema_definitions. rewrite (pre_bodies (fun b => match b with DSchema t => [t] | _ => [] end)). reflexivity. Qed.
Lemma pre_schemaexts : schema_extensions d' = schema_extensions d.
Proof. unfold schema_extensions. rewrite (pre_bodies (fun b => match b with XSchema t => [t] | _ => [] end)). reflexivity. Qed.
Context (O : own d).
Lemma find_none {X} (name : X -> bytes) l n : (forall x, In x l -> name x <> n) -> find (fun x => if bytes_dec n (name x) then true else false) l = None.
Proof. intros H. destruct (find _ l) as [x|] eqn:F; [|reflexivity]. apply find_some in F as [Hx Hn]. exfalso. apply (H x Hx). destruct (bytes_dec n (name x)); [congruence|discriminate]. Qed.
Lemma pre_defined_directive n : match defined_directive d' n with Some x => Some x | None => builtin_directive n end = match defined_directive d n with Some x => Some x | None => builtin_directive n end.
Proof.
  assert (H : forall m, In m builtin_directives -> defined_directive d m = None).
  { intros m Hm. apply find_none. intros x Hx Hn. apply (ow_directives _ O x Hx). rewrite Hn. exact Hm. }
  unfold defined_directive at 1. rewrite pre_directives. cbn [app find dd_name skip_directive include_directive deprecated_directive]. unfold builtin_directive. cbn [mget]. rewrite !beqb_dec.
  destruct (bytes_dec n (B "skip")) as [->|]; [rewrite (H (B "skip")) by (left; reflexivity); reflexivity|].
  destruct (bytes_dec n (B "include")) as [->|]; [rewrite (H (B "include")) by (right; left; reflexivity); reflexivity|].
  destruct (bytes_dec n (B "deprecated")) as [->|]; [rewrite (H (B "deprecated")) by (right; right; left; reflexivity); reflexivity|].
  reflexivity.
Qed.
Lemma pre_defined_type n : defined_type d' n = if inb n builtin_types then Some (scalar_type n) else defined_type d n.
Proof.
  unfold defined_type. rewrite pre_types. cbn [app map builtin_types find t_name scalar_type inb existsb]. rewrite !beqb_dec.
  destruct (bytes_dec n (B "ID")) as [->|]; [reflexivity|]. destruct (bytes_dec n (B "String")) as [->|]; reflexivity.
Qed.
Lemma builtin_known n : In n builtin_types -> In n scalar_names.
Proof. intros [<-|[<-|[]]]; vm_compute; tauto. Qed.
Lemma pre_later (a b : list bytes) : NoDup a -> (forall x, In x a -> ~ In x b) -> Permutation (later (a ++ b)) (later b).
Proof.
  intros N D. apply (Permutation_count_occ bytes_dec). intros x. rewrite !count_later, count_occ_app. destruct (in_dec bytes_dec x a) as [I|I].
  - rewrite (proj1 (NoDup_count_occ' bytes_dec a) N x I), (proj1 (count_occ_not_In bytes_dec b x) (D x I)). reflexivity.
  - rewrite (proj1 (count_occ_not_In bytes_dec a x) I). reflexivity.
Qed.
Lemma nodup_check (l : list bytes) : (fix nd l := match l with [] => true | x :: r => negb (inb x r) && nd r end) l = true -> NoDup l.
Proof.
  induction l as [|x l IH]; intros H; [constructor|]. apply andb_true_iff in H as [H1 H2]. constructor; [|apply IH, H2]. intros I. apply inb_In in I. rewrite I in H1. discriminate.
Qed.
Lemma pre_errors : Permutation (c_errors (validate_sdl d' None)) (c_errors (validate_sdl d None)).
Proof.
  assert (DO : forall n, directive_of d' None n = directive_of d None n) by (intros n; exact (pre_defined_directive n)).
  assert (TO : forall n, type_of d' None n = if inb n builtin_types then Some (scalar_type n) else type_of d None n) by (intros n; exact (pre_defined_type n)).
  apply (by_kind [is_optype_err; is_dup_directive; is_dup_arg; is_dup_input; is_unknown_arg; is_directive_err; is_unknown_type; is_underscores; is_ext_err; is_missing_arg; is_dup_type; is_existed_type; is_dup_dir; is_existed_dir; is_schema_err]).
  1,2: (intros e H; apply C43_sdl_no_other_errors in H; destruct e; try discriminate H; reflexivity).
  destruct (C23_sdl_exact d None) as (A1 & A2 & A3). destruct (C23_sdl_exact d' None) as (B1 & B2 & B3).
  destruct (C32_types d None) as [A4 A5]. destruct (C32_types d' None) as [B4 B5]. destruct (C32_directives d None) as [A6 A7]. destruct (C32_directives d' None) as [B6 B7].
  intros k Hk. repeat (destruct Hk as [<-|Hk]).
  - rewrite (same_optypes d' d None); [apply Permutation_refl|]. rewrite E. reflexivity.
  - rewrite A1, B1, pre_dsites. apply Permutation_refl.
  - rewrite A2, B2, pre_asites. apply Permutation_refl.
  - rewrite A3, B3, pre_osites. apply Permutation_refl.
  - rewrite !C27_actual, pre_applications. erewrite flat_map_ext'; [apply Permutation_refl|]. intros x. rewrite DO. reflexivity.
  - rewrite !(C22_sdl_exact _ None _ C22_ok_exists), pre_applications. erewrite flat_map_ext'; [apply Permutation_refl|]. intros x. rewrite DO. reflexivity.
  - set (known := fun t => orb (match type_of d None t with Some _ => true | None => false end) (inb t scalar_names)).
    assert (Hk : forall t, known t = true <-> (exists td, type_of d None t = Some td) \/ In t scalar_names).
    { intros t. unfold known. rewrite orb_true_iff, inb_In. destruct (type_of d None t); split; intros [H|H]; eauto; try discriminate. destruct H; discriminate. }
    rewrite (C21_sdl_exact d None known Hk), (C21_sdl_exact d' None known).
    + rewrite pre_refs, filter_app, map_app. replace (filter _ (map B _)) with (@nil bytes); [apply Permutation_refl|]. cbn [map filter].
      assert (K : forall t, In t scalar_names -> known t = true) by (intros t Ht; apply Hk; right; exact Ht).
      rewrite !K by (vm_compute; tauto). reflexivity.
    + intros t. rewrite TO, Hk. destruct (inb t builtin_types) eqn:I; [|reflexivity]. apply inb_In, builtin_known in I. split; intros _; [left; eauto|right; exact I].
  - rewrite !(C29_actual _ None bad_name bad_name_spec), pre_names, filter_app, map_app. apply Permutation_refl.
  - rewrite !C30_exact, pre_typeexts. apply Permutation_refl'. apply flat_ext_in. intros x Hx. unfold extension_error. rewrite TO. destruct (inb (t_name x) builtin_types) eqn:I; [|reflexivity].
    apply inb_In in I. exfalso. apply (ow_extensions _ O x Hx I).
  - rewrite !C28_exact, pre_applications. erewrite flat_map_ext'; [apply Permutation_refl|]. intros x. rewrite DO. reflexivity.
  - rewrite A5, B5, pre_types, map_app, filter_app. apply Permutation_map. apply (pre_later builtin_types).
    + apply nodup_check. reflexivity.
    + intros x Hx Hi. apply filter_In in Hi as [Hi _]. apply in_map_iff in Hi as (t & <- & Ht). apply (ow_types _ O t Ht Hx).
  - rewrite A4, B4, pre_types, map_app, filter_app. apply Permutation_refl.
  - rewrite A7, B7, pre_directives, map_app, filter_app. apply Permutation_map. apply (pre_later builtin_directives).
    + apply nodup_check. reflexivity.
    + intros x Hx Hi. apply filter_In in Hi as [Hi _]. apply in_map_iff in Hi as (t & <- & Ht). apply (ow_directives _ O t Ht Hx).
  - rewrite A6, B6, pre_directives, map_app, filter_app. apply Permutation_refl.
  - rewrite !C32_schema_definitions, pre_schemas. apply Permutation_refl.
  - destruct Hk.
Qed.
End Pre.
Section Built.
Context (d d' : document) (E : bodies d' = pre ++ bodies d) (O : own d).
Lemma pre_visits ord : visits d ord <-> visits d' ord.
Proof. unfold visits, extensions_of. rewrite (pre_typeexts d d' E). reflexivity. Qed.
Lemma pre_built ord ord' : targets_defined d None -> visits d ord -> visits d' ord' -> same_schema (built d None ord) (built d' None ord').
Proof.
  intros T V V'.
  assert (T' : targets_defined d' None).
  { intros x Hx. rewrite (pre_typeexts d d' E) in Hx. change (defined_type d' (t_name x) <> None). rewrite (pre_defined_type d d' E). destruct (inb _ _); [discriminate|]. exact (T x Hx). }
  destruct (C34_roots d ord V T) as (R1 & R2 & R3 & R4). destruct (C34_roots d' ord' V' T') as (R1' & R2' & R3' & R4').
  assert (ES : effective_schema d' = effective_schema d) by (unfold effective_schema; rewrite (pre_schemas d d' E), (pre_schemaexts d d' E); reflexivity). rewrite ES in *.
  constructor; try congruence.
  - intros n. rewrite (C34_types d ord V T n), (C34_types d' ord' V' T' n), (pre_defined_type d d' E n). destruct (inb n builtin_types) eqn:I.
    + apply inb_In in I. assert (N1 : defined_type d n = None) by (apply find_none; intros t Ht <-; apply (ow_types _ O t Ht I)).
      assert (N2 : extensions_of d' n = []).
      { unfold extensions_of. rewrite (pre_typeexts d d' E). apply filter_none. intros t Ht. destruct (bytes_dec n (t_name t)) as [->|]; [|reflexivity]. exfalso. apply (ow_extensions _ O t Ht I). }
      rewrite N1, N2. destruct I as [<-|[<-|[]]]; reflexivity.
    + unfold extensions_of. rewrite (pre_typeexts d d' E). reflexivity.
  - intros n. rewrite (C34_directives d ord V T n), (C34_directives d' ord' V' T' n). symmetry. apply (pre_defined_directive d d' E O).
Qed.
Lemma pre_valid : sdl_valid d None <-> sdl_valid d' None.
Proof. pose proof (pre_errors d d' E O) as P. rewrite <- !sdl_errors_iff. split; intros H; rewrite H in P; [apply Permutation_sym in P|]; apply Permutation_nil, P. Qed.
End Built.

Lemma Forall_map_body (p : document) : Forall (body_types closed_type) (map def_body (doc_defs p)) -> complete_types p.
Proof. unfold complete_types. rewrite Forall_map. intros H. exact H. Qed.

(** ** C64.  A document without definitions of its own for the built-in names means what it means with the prelude before it: the
    same errors, equally often; *)
Theorem C64_errors : forall fok d d', preceded fok d d' -> own d -> Permutation (c_errors (validate_sdl d' None)) (c_errors (validate_sdl d None)).
Proof. intros fok d d' P O. exact (pre_errors d d' (preceded_pre fok d d' P) O). Qed.
Print Assumptions C64_errors.
(** the same schema; *)
Theorem C64_schema : forall fok d d' ord ord', preceded fok d d' -> own d -> sdl_valid d None -> visits d ord -> visits d' ord' -> same_schema (built d None ord) (built d' None ord').
Proof.
  intros fok d d' ord ord' P O V A A'. apply (pre_built d d' (preceded_pre fok d d' P) O ord ord'); [|exact A|exact A']. apply C34_valid_targets, sdl_errors_iff, V.
Qed.
Print Assumptions C64_schema.
(** and ParseSDLDoc returns it in one case if and only if in the other. *)
Theorem C64_returned : forall fok peq i i' d d' ord od ot oi ord' od' ot' oi', (forall a b, peq a b = true -> a = b) -> parse fok i = Doc d -> parse fok i' = Doc d' -> preceded fok d d' -> own d ->
  orders d None ord od ot oi -> orders d' None ord' od' ot' oi' ->
  ((exists fuel sch, parse_sdl_doc fok peq fuel ord od ot oi i None = Returned sch) <-> (exists fuel' sch', parse_sdl_doc fok peq fuel' ord' od' ot' oi' i' None = Returned sch')) /\
  (forall fuel fuel' sch sch', parse_sdl_doc fok peq fuel ord od ot oi i None = Returned sch -> parse_sdl_doc fok peq fuel' ord' od' ot' oi' i' None = Returned sch' -> same_schema sch sch').
Proof.
  intros fok peq i i' d d' ord od ot oi ord' od' ot' oi' P E E' R Ow O O'. pose proof (preceded_pre fok d d' R) as R0.
  assert (OO : forall x, parse fok i = Doc x -> orders x None ord od ot oi) by (intros x Hx; rewrite E in Hx; injection Hx as <-; exact O).
  assert (OO' : forall x, parse fok i' = Doc x -> orders x None ord' od' ot' oi') by (intros x Hx; rewrite E' in Hx; injection Hx as <-; exact O').
  assert (S : sdl_valid d None -> same_schema (built d None ord) (built d' None ord')) by (intros V; apply (C64_schema fok d d' ord ord' R Ow V); [apply O|apply O']).
  pose proof (fun sch => C33_sdl_returned_iff fok peq ord od ot oi i None sch P OO) as Q. pose proof (fun sch => C33_sdl_returned_iff fok peq ord' od' ot' oi' i' None sch P OO') as Q'. split; [split|].
  - intros (fuel & sch & H). destruct (proj1 (Q sch)) as (x & Ex & V & -> & W & U & X); [exists fuel; exact H|]. rewrite E in Ex. injection Ex as <-. specialize (S V).
    destruct (proj2 (Q' (built d' None ord'))) as (fuel' & H'); [|exists fuel', (built d' None ord'); exact H'].
    exists d'. split; [exact E'|]. split; [apply (pre_valid d d' R0 Ow), V|]. split; [reflexivity|]. split; [apply (same_whole _ _ S W)|].
    split; [intros U'; apply U, (same_undecided _ _ (same_sym _ _ S) U')|]. intros e X'. apply (X e), (same_violation _ _ _ (same_sym _ _ S) X').
  - intros (fuel & sch & H). destruct (proj1 (Q' sch)) as (x & Ex & V & -> & W & U & X); [exists fuel; exact H|]. rewrite E' in Ex. injection Ex as <-. apply (pre_valid d d' R0 Ow) in V. specialize (S V).
    destruct (proj2 (Q (built d None ord))) as (fuel' & H'); [|exists fuel', (built d None ord); exact H'].
    exists d. split; [exact E|]. split; [exact V|]. split; [reflexivity|]. split; [apply (same_whole _ _ (same_sym _ _ S) W)|].
    split; [intros U'; apply U, (same_undecided _ _ S U')|]. intros e X'. apply (X e), (same_violation _ _ _ S X').
  - intros fuel fuel' sch sch' H H'. destruct (proj1 (Q sch)) as (x & Ex & V & -> & _); [exists fuel; exact H|]. rewrite E in Ex. injection Ex as <-.
    destruct (proj1 (Q' sch')) as (x & Ex & V' & -> & _); [exists fuel'; exact H'|]. rewrite E' in Ex. injection Ex as <-. apply S, V.
Qed.
Print Assumptions C64_returned.
(** In text: the prelude, a newline, the source. *)
Theorem C64_text : forall fok cs d, clean cs -> regular_blocks (PropLex.src prelude ++ 10%Z :: cs) -> parse fok (utf8s cs) = Doc d -> complete_types d ->
  exists d', parse fok (utf8s (PropLex.src prelude ++ 10%Z :: cs)) = Doc d' /\ preceded fok d d'.
Proof.
  intros fok cs d C R P T. destruct (prelude_parses fok) as (p & E & Hp).
  destruct (C51_concatenation fok (PropLex.src prelude) cs p d) as (d' & E' & B & _); try assumption.
  - apply cleanb_spec. vm_compute. reflexivity.
  - apply (Forall_map_body p). rewrite Hp. repeat constructor.
  - intros [H _]. unfold ends_without_block in H. destruct (rev (doc_defs p)) as [|x l] eqn:Er; [exact H|]. assert (L : rev (map def_body (doc_defs p)) = def_body x :: map def_body l) by (rewrite <- map_rev, Er; reflexivity).
    rewrite Hp in L. cbn in L. injection L as L _. rewrite <- L in H. exact H.
  - exists d'. split; [exact E'|]. exists p. split; [exact E|exact B].
Qed.
Print Assumptions C64_text.

(** ** Limits *)
(** What is built in cannot be extended, although it is in the schema; *)
Theorem C64_extension_refuted : exists d d', preceded (fun _ => true) d d' /\ sdl_valid d' None /\ c_errors (validate_sdl d None) = [EExtendUnknown (B "ID")].
Proof.
  exists (src "directive @d on SCALAR extend scalar ID @d"), (src (prelude ++ " directive @d on SCALAR extend scalar ID @d")). split; [|split].
  - destruct (prelude_parses (fun _ => true)) as (p & E & Hp). exists p. split; [exact E|]. rewrite Hp. vm_compute. reflexivity.
  - apply sdl_errors_iff. vm_compute. reflexivity.
  - vm_compute. reflexivity.
Qed.
Print Assumptions C64_extension_refuted.
(** and the other scalars of the specification, "Boolean" of the directives above among them, are never in it unless defined. *)
Theorem C64_scalars_refuted : forall d ord, visits d ord -> targets_defined d None -> forall n, In n (map B ["Int"; "Float"; "Boolean"]%string) -> (forall t, In t (type_definitions d) -> t_name t <> n) ->
  mget n (sc_types (built d None ord)) = None /\ In n scalar_names.
Proof.
  intros d ord V T n Hn Hd. rewrite (C34_types d ord V T n). unfold defined_type. rewrite (find_none t_name _ n Hd). destruct Hn as [<-|[<-|[<-|[]]]]; (split; [vm_compute; reflexivity|vm_compute; tauto]).
Qed.
Print Assumptions C64_scalars_refuted.

(** ** Example *)
Definition builtin_user : document := src "type Query {a:ID @deprecated(reason:""old"") b:String} enum E {V @deprecated} extend type Query {c:E}".
Lemma own_check d : forallb (fun t => negb (inb (t_name t) builtin_types)) (type_definitions d ++ type_extensions d) && forallb (fun x => negb (inb (dd_name x) builtin_directives)) (directive_definitions d) = true -> own d.
Proof.
  intros H. apply andb_true_iff in H as [H1 H2]. rewrite forallb_forall in H1, H2. split; intros t Ht I; apply inb_In in I.
  - specialize (H1 t). rewrite I in H1. discriminate H1. apply in_app_iff. left. exact Ht.
  - specialize (H1 t). rewrite I in H1. discriminate H1. apply in_app_iff. right. exact Ht.
  - specialize (H2 t Ht). rewrite I in H2. discriminate H2.
Qed.
Example C64_nonvacuous : own builtin_user /\ sdl_valid builtin_user None /\ exists d', preceded (fun _ => true) builtin_user d'.
Proof.
  split; [apply own_check; vm_compute; reflexivity|]. split; [apply sdl_errors_iff; vm_compute; reflexivity|].
  exists (src (prelude ++ " type Query {a:ID @deprecated(reason:""old"") b:String} enum E {V @deprecated} extend type Query {c:E}")).
  destruct (prelude_parses (fun _ => true)) as (p & E & Hp). exists p. split; [exact E|]. rewrite Hp. vm_compute. reflexivity.
Qed.
