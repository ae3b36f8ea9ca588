(** * PropMessages: C57 — the messages of validation errors tell the errors apart.

    A caller sees an error as its message.  For parsed documents, whatever the input, two reports have the
    same message only if they report the same error: the same rule, names, places, kinds and types.  So each of the exact
    descriptions C19-C32 of the reported errors is a description of the reported messages. *)
From Verif Require Import Base Utf8 Lexer LexSpec AST Parser Context Rules QueryProofs SdlProofs SchemaSpec SchemaBuild PropRules PropSdl PropBuild WellFormed PropWell GoodNodes Messages MessageProofs Samples.

(** [e] is reported for some document that was parsed, by the rules for queries or by those for type systems; [wordy s]: the
    arguments of the directives of the given schema are called and typed by texts without quotation marks and spaces. *)
Definition raised (fok : bytes -> bool) (e : err) : Prop :=
  exists i d s, parse fok i = Doc d /\ (In e (c_errors (validate d s)) \/ wordy s /\ In e (c_errors (validate_sdl d s))).
Lemma raised_worded fok e : raised fok e -> worded e.
Proof.
  intros (i & d & s & Hp & H). pose proof (C55_any_input fok i d Hp) as W.
  destruct H as [H|[Ws H]]; [exact (query_worded _ (name_word i) _ d W s e H)|exact (sdl_worded _ (name_word i) _ d W s e Ws H)].
Qed.
Theorem C57_message_identifies fok fok' e e' : raised fok e -> raised fok' e' -> message e = message e' -> e = e'.
Proof. intros H H'. apply message_inj; eapply raised_worded; eassumption. Qed.
Print Assumptions C57_message_identifies.
(** Whether an error was reported can be read off the messages. *)
Theorem C57_reported_messages fok i d s e : parse fok i = Doc d -> worded e ->
  (In (message e) (map message (c_errors (validate d s))) <-> In e (c_errors (validate d s))) /\
  (wordy s -> In (message e) (map message (c_errors (validate_sdl d s))) <-> In e (c_errors (validate_sdl d s))).
Proof.
  intros R We. split; [|intros Ws]; (split; [|apply in_map]); intros H; apply in_map_iff in H; destruct H as (e' & E & H).
  - assert (worded e') by (eapply raised_worded; exists i, d, s; split; [exact R|left; exact H]). rewrite <- (message_inj e' e) by assumption. exact H.
  - assert (worded e') by (eapply raised_worded; exists i, d, s; split; [exact R|right; split; assumption]). rewrite <- (message_inj e' e) by assumption. exact H.
Qed.
Print Assumptions C57_reported_messages.
(** No schema, and every schema built from a text, meets the hypothesis. *)
Theorem C57_schemas : wordy None /\ forall fok i d ord, parse fok i = Doc d -> visits d ord -> targets_defined d None -> wordy (Some (built d None ord)).
Proof.
  split; [exact wordy_none|]. intros fok inp d ord Hp V T n x i H Hi. pose proof (C55_any_input fok inp d Hp) as W.
  apply (directive_args_word _ (name_word inp) _ d W None n x i wordy_none); [|exact Hi]. unfold directive_of. cbn [given mget sc_dirs empty_schema].
  change (given (Some (built d None ord))) with (built d None ord) in H. rewrite (C34_directives d ord V T) in H. exact H.
Qed.
Print Assumptions C57_schemas.
(** Without the hypothesis messages can be ambiguous: an argument of a directive of a hand-made schema. *)
Definition odd_schema (n t : string) : option schema :=
  Some (mkSchema None None None None [(B "d", mkDd (B "") (B "d") [mkIv (B "") (B n) (TNamed (B t) true) None []] LScalar)] []).
Theorem C57_refuted_handmade : exists d s s' e e', parse (fun _ => true) (B "scalar S @d") = Doc d /\ In e (c_errors (validate_sdl d s)) /\ In e' (c_errors (validate_sdl d s')) /\
  message e = message e' /\ e <> e'.
Proof.
  exists (src "scalar S @d"), (odd_schema "x"" of type ""y" "z"), (odd_schema "x" "y"" of type ""z"),
    (EMissingArg (B "d") (B "x"" of type ""y") (B "z!")), (EMissingArg (B "d") (B "x") (B "y"" of type ""z!")).
  split; [vm_compute; reflexivity|]. split; [vm_compute; tauto|]. split; [vm_compute; tauto|]. split; [vm_compute; reflexivity|]. intros E. discriminate E.
Qed.
Print Assumptions C57_refuted_handmade.

(** Messages of each rule, as a caller sees them (last reported first). *)
Definition texts (c : ctx) : list bytes := map message (c_errors c).
Example C57_nonvacuous :
  texts (validate (src "query Q($v:Int){a} {b(x:1 x:2)} type T {f:U @inline} fragment F on V{c @d @d @deprecated d(y:{z:1 z:2})}") None) =
  map B ["There can be only one input field named ""z""."; "Directive ""deprecated"" may not be used on FIELD."; "Unknown directive ""d""."; "Unknown directive ""d"".";
    "The directive ""d"" can only be used once at this location."; "Unknown type ""V""."; "Unknown directive ""inline""."; "Unknown type ""U"".";
    "The ""T"" definition is not executable."; "There can be only one argument named ""x""."; "This anonymous operation must be the only defined operation.";
    "Variable v is never used in operation Q"]%string.
Proof. vm_compute. reflexivity. Qed.
Example C57_nonvacuous_sdl :
  texts (validate_sdl (src "type T {f:Int @deprecated(a:1)} type T {g:U} directive @d(a:[Int!]!) on SCALAR directive @d on OBJECT scalar __S @d schema {query:T} schema {query:T query:T} extend schema {query:T} extend type X extend scalar T @skip(if:true)") None) =
  map B ["Directive ""skip"" may not be used on SCALAR."; "Cannot extend non-objecttype ""T""."; "Cannot extend type ""X"" because it is not defined.";
    "There can be only one query type in schema."; "There can be only one query type in schema.";
    "Directive ""d"" argument ""a"" of type ""[Int!]!"" is required, but it was not provided"; "Name ""__S"" must not begin with ""__"" (two underscores)"; "Unknown type ""U"".";
    "Unknown argument ""a"" on directive ""deprecated""."; "Must provide only one schema definition."; "There can be only one directive named ""d"".";
    "There can be only one type named T."]%string.
Proof. vm_compute. reflexivity. Qed.
Definition old_schema : option schema :=
  Some (mkSchema None (Some (TNamed (B "T") false)) None None [(B "d", mkDd (B "") (B "d") [] LScalar)] [(B "T", scalar_type (B "T"))]).
Example C57_nonvacuous_extending :
  texts (validate_sdl (src "type T {f:Int} directive @d(a:[Int!]!) on SCALAR schema {query:T} extend schema {query:T}") old_schema) =
  map B ["Type for query already defined in the schema. It cannot be redefined."; "Cannot define a new schema within a schema extension.";
    "Directive ""d"" already exists in the schema. It cannot be redefined.";
    "Type T already exists in the schema. It cannot also be defined in this type definition."]%string.
Proof. vm_compute. reflexivity. Qed.
Example C57_nonvacuous_rest : message (EUnusedVariable (B "v") []) = B "Variable v is never used" /\
  message (EInvalidName (B "1")) = B "Name must match /^[_a-zA-Z][_a-zA-Z0-9]*$/ but ""1"" does not." /\
  message (EReserved (B "__a")) = B "Name ""__a"" must not begin with ""__"" which is reserved by GraphQL introspection." /\
  message (EDupOperationName (B "Q")) = B "There can be only one operation named Q.".
Proof. vm_compute. repeat split; reflexivity. Qed.

(** What one message says is wrong whenever it is reported: "Cannot extend non-<kind>type T" names the kind that T has (the
    rule passes the kind of the definition, not that of the extension). *)
Theorem C57_extension_message_refuted : forall d s n k, In (EExtendKind n k) (c_errors (validate_sdl d s)) ->
  exists def, type_of d s n = Some def /\ k = kind_string (t_kind def).
Proof.
  intros d s n k H. apply (reported_In RuleSpec.is_ext_err) in H; [|reflexivity]. rewrite C30_exact in H. apply in_flat_map in H. destruct H as (x & _ & H). unfold extension_error in H.
  destruct (type_of d s (t_name x)) as [def|] eqn:E; [|destruct H as [H|[]]; discriminate H].
  assert (G : EExtendKind (t_name x) (kind_string (t_kind def)) = EExtendKind n k) by (destruct (t_kind x), (t_kind def); try (destruct H; fail); (destruct H as [H|[]]; exact H)).
  exists def. split; congruence.
Qed.
Print Assumptions C57_extension_message_refuted.
(** The words of the messages: the kind of a type and the operation of a root type as GraphQL calls them. *)
Definition kind_word (k : tkindT) : string :=
  match k with KScalar => "scalar" | KObject => "object" | KInterface => "interface" | KUnion => "union" | KEnum => "enum" | KInputObject => "input object" end.
Definition operation_word (o : opkind) : string := match o with Query => "query" | Mutation => "mutation" | Subscription => "subscription" end.
Theorem C57_extension_text : forall d s n k, In (EExtendKind n k) (c_errors (validate_sdl d s)) ->
  exists x def, In x (RuleSpec.type_extensions d) /\ t_name x = n /\ type_of d s n = Some def /\ t_kind x <> t_kind def /\
    message (EExtendKind n k) = B "Cannot extend non-" ++ B (kind_word (t_kind def)) ++ B "type """ ++ n ++ B """.".
Proof.
  intros d s n k H. apply (reported_In RuleSpec.is_ext_err) in H; [|reflexivity]. rewrite C30_exact in H. apply in_flat_map in H. destruct H as (x & Hx & H). unfold extension_error in H.
  destruct (type_of d s (t_name x)) as [def|] eqn:E; [|destruct H as [H|[]]; discriminate H].
  assert (G : EExtendKind (t_name x) (kind_string (t_kind def)) = EExtendKind n k /\ t_kind x <> t_kind def) by (destruct (t_kind x), (t_kind def); try (destruct H; fail); (destruct H as [H|[]]; split; [exact H|discriminate])).
  destruct G as [G K]. exists x, def. assert (N : t_name x = n) by congruence. assert (W : k = kind_string (t_kind def)) by congruence. subst k n. repeat (split; [assumption || reflexivity|]).
  cbn [message]. unfold q. rewrite <- !app_assoc. destruct (t_kind def); reflexivity.
Qed.
Print Assumptions C57_extension_text.
Lemma in_with_before {X Y} (f : list X -> X -> list Y) y l : forall b, In y (with_before f b l) -> exists b' x, In x l /\ In y (f b' x).
Proof.
  induction l as [|x l IH]; intros b H; [destruct H|]. cbn [with_before] in H. apply in_app_iff in H as [H|H]; [exists b, x; split; [left; reflexivity|exact H]|].
  destruct (IH _ H) as (b' & x' & Hx & Hy). exists b', x'. split; [right; exact Hx|exact Hy].
Qed.
Theorem C57_operation_text : forall d s e w, (e = EDupOperationType w /\ message e = B "There can be only one " ++ w ++ B " type in schema." \/
    e = EExistedOperationType w /\ message e = B "Type for " ++ w ++ B " already defined in the schema. It cannot be redefined.") ->
  In e (c_errors (validate_sdl d s)) -> exists o, In o (map snd (op_entries d)) /\ w = B (operation_word o).
Proof.
  intros d s e w C H. assert (K : RuleSpec.is_optype_err e = true) by (destruct C as [[-> _]|[-> _]]; reflexivity). apply (reported_In RuleSpec.is_optype_err) in H; [|exact K]. rewrite C31_exact in H.
  apply in_with_before in H. destruct H as (b & [[i x] o] & Hx & H). exists o. split; [apply in_map_iff; exists (i, x, o); split; [reflexivity|exact Hx]|].
  unfold optype_error in H. assert (G : e = EDupOperationType (op_string o) \/ e = EExistedOperationType (op_string o)).
  { destruct x; [destruct (root_type (given s) o)|]; try (destruct (in_dec _ _ _)); try (destruct H; fail); destruct H as [<-|[]]; auto. }
  assert (w = op_string o) as -> by (destruct C as [[-> _]|[-> _]], G as [G|G]; congruence). destruct o; reflexivity.
Qed.
Print Assumptions C57_operation_text.
(** These are the words of the language: with them the text is parsed to that operation and that kind. *)
Theorem C57_words : forall fok, (forall o, exists d, parse fok (B "schema {" ++ B (operation_word o) ++ B ": T}") = Doc d /\ map snd (op_entries d) = [o]).
Proof. intros fok o. destruct o; eexists; (split; [vm_compute; reflexivity|vm_compute; reflexivity]). Qed.
Print Assumptions C57_words.
