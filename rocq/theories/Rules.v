(** * Rules: model of validation/rules/*.go and validation/validate.go — the rules of [Specified] and [SpecifiedSDL]. *)
From Verif Require Import Base AST Walker Context.

(** rule_executable_definitions.go:18-45 [getDefinitionName]. *)
Definition definition_name (b : body) : bytes :=
  match b with
  | DSchema _ => B "schema" | DType t => t_name t | DDir d => dd_name d
  | XSchema _ => B "schema" | XType t => t_name t
  | DOp _ | DFrag _ => []
  end.
(** rule_executable_definitions.go:9-15. *)
Definition ExecutableDefinitions : walker ctx -> walker ctx :=
  add_handler Enter TDefinition (fun c n =>
    match n with
    | NDefinition _ d =>
        match def_body d with
        | DOp _ | DFrag _ => c
        | b => add_error (ENonExecutable (definition_name b)) c
        end
    | _ => c
    end).

(** rule_lone_anonymous_operation.go:12-18. *)
Definition LoneAnonymousOperation : walker ctx -> walker ctx :=
  add_handler Enter TOperation (fun c n =>
    match n with
    | NOperation o => if beqb (o_name o) [] && Nat.ltb 1 (n_ops (c_doc c)) then add_error EAnonNotAlone c else c
    | _ => c
    end).

(** rule_known_type_names.go:34-41. *)
Definition is_specified_scalar (n : bytes) : bool :=
  inb n (map B ["String"; "Int"; "Float"; "Boolean"; "ID"]%string).
(** rule_known_type_names.go:9-28. *)
Definition KnownTypeNames : walker ctx -> walker ctx :=
  add_handler Enter TNamedType (fun c n =>
    match n with
    | NNamedType (TNamed t _) =>
        let in_schema := mem t (sc_types (c_schema c)) in
        let in_doc := match c_sdl c with Some s => mem t (sd_types s) | None => false end in
        if negb in_schema && negb in_doc && negb (is_specified_scalar t) then add_error (EUnknownType t) c else c
    | _ => c
    end).

(** rule_no_unused_variables.go:9-31. *)
Definition NoUnusedVariables : walker ctx -> walker ctx :=
  add_handler Leave TExecutable (fun c n =>
    match n with
    | NExecutable i (DOp o) =>
        match recursive_variable_usages c i with
        | None => crash c
        | Some uses => each (fun v c => if inb (v_name v) uses then c else add_error (EUnusedVariable (v_name v) (o_name o)) c) (o_vars o) c
        end
    | _ => c
    end).

(** rule_known_directives.go:10-43. *)
Definition KnownDirectives : walker ctx -> walker ctx :=
  add_handler Enter TDirective (fun c n =>
    match n with
    | NDirective d =>
        let def := match mget (d_name d) (sc_dirs (c_schema c)) with
                   | Some x => Some x
                   | None =>
                       match match c_sdl c with Some s => mget (d_name d) (sd_dirs s) | None => None end with
                       | Some x => Some x
                       | None => mget (d_name d) specified_directives
                       end
                   end in
        match def with
        | None => add_error (EUnknownDirective (d_name d)) c
        | Some x => if N.eqb (N.land (dd_locs x) (d_loc d)) 0 then add_error (EMisplaced (d_name d) (d_loc d)) c else c
        end
    | _ => c
    end).

(** The loop of the uniqueness rules: rule_unique_directives_per_location.go:15-25, rule_unique_argument_names.go:36-63,
    rule_unique_input_field_names.go:12-22: an error for a name already in the map, otherwise the name is put in it. *)
Definition unique_loop (mk : bytes -> err) (names : list bytes) (c : ctx) : ctx :=
  snd (fold_left (fun st n => if inb n (fst st) then (fst st, add_error (mk n) (snd st)) else (n :: fst st, snd st)) names ([], c)).
(** rule_unique_directives_per_location.go:9-27. *)
Definition UniqueDirectivesPerLocation : walker ctx -> walker ctx :=
  add_handler Enter TDirectives (fun c n =>
    match n with NDirectives l => unique_loop EDupDirective (map d_name l) c | _ => c end).
(** rule_unique_argument_names.go:9-33. *)
Definition UniqueArgumentNames (w : walker ctx) : walker ctx :=
  add_handler Enter TDirectiveDefinition (fun c n =>
    match n with NDirectiveDefinition d => unique_loop EDupArg (map i_name (dd_args d)) c | _ => c end)
 (add_handler Enter TFieldDefinition (fun c n =>
    match n with NFieldDefinition f => unique_loop EDupArg (map i_name (fd_args f)) c | _ => c end)
 (add_handler Enter TDirective (fun c n =>
    match n with NDirective d => unique_loop EDupArg (map arg_name (d_args d)) c | _ => c end)
 (add_handler Enter TFieldSelection (fun c n =>
    match n with NFieldSelection (SField _ _ args _ _) => unique_loop EDupArg (map arg_name args) c | _ => c end) w))).
(** rule_unique_input_field_names.go:9-24. *)
Definition UniqueInputFieldNames : walker ctx -> walker ctx :=
  add_handler Enter TObjectValue (fun c n =>
    match n with NObjectValue (VObject fs) => unique_loop EDupInputField (map fst fs) c | _ => c end).

(** rules.go:12-39. *)
Definition Specified : list (walker ctx -> walker ctx) :=
  [ExecutableDefinitions; LoneAnonymousOperation; KnownTypeNames; NoUnusedVariables; KnownDirectives;
   UniqueDirectivesPerLocation; UniqueArgumentNames; UniqueInputFieldNames].

(** rule_unique_operation_types.go:43-72: which operation types the schema already has. *)
Definition schema_op (s : schema) (o : opkind) : option ty :=
  match o with Query => sc_query s | Mutation => sc_mutation s | Subscription => sc_subscription s end.
Definition opkind_eqb (a b : opkind) : bool :=
  match a, b with Query, Query | Mutation, Mutation | Subscription, Subscription => true | _, _ => false end.
Definition mark (o : opkind) (c : ctx) : ctx :=
  match c_sdl c with None => crash c | Some s => set_sdl (Some (with_flag o s)) c end.
(** rule_unique_operation_types.go:9-73; the three local flags of a schema definition are the list of kinds seen. *)
Definition UniqueOperationTypes (w : walker ctx) : walker ctx :=
  add_handler Leave TSchemaExtension (fun c n =>
    match n with
    | NSchemaExtension x =>
        each (fun ot c =>
          match c_sdl c with
          | None => crash c
          | Some s =>
              mark (ot_op ot)
                match schema_op (c_schema c) (ot_op ot) with
                | Some _ => add_error (EExistedOperationType (op_string (ot_op ot))) c
                | None => if flag (ot_op ot) s then add_error (EDupOperationType (op_string (ot_op ot))) c else c
                end
          end) (s_ops x) c
    | _ => c
    end)
 (add_handler Leave TSchemaDefinition (fun c n =>
    match n with
    | NSchemaDefinition x =>
        snd (fold_left (fun st ot =>
          let c := if existsb (opkind_eqb (ot_op ot)) (fst st) then add_error (EDupOperationType (op_string (ot_op ot))) (snd st) else snd st in
          (ot_op ot :: fst st, mark (ot_op ot) c)) (s_ops x) ([], c))
    | _ => c
    end) w).

(** rule_known_argument_names.go:12-46.  [cur] is what the generator over the definition's arguments still yields; Reset
    makes it the [original] pointer, which Generator() leaves nil (LinkedList.v, [generator], [reset]). *)
Fixpoint scan_args (name : bytes) (cur : list ivdef) : bool :=
  match cur with [] => false | x :: r => if beqb name (i_name x) then true else scan_args name r end.
Definition KnownArgumentNamesOnDirectives : walker ctx -> walker ctx :=
  add_handler Enter TDirective (fun c n =>
    match n with
    | NDirective d =>
        match d_args d with
        | [] => c
        | _ =>
            match c_sdl c with
            | None => crash c
            | Some s =>
                match ctx_directive c s (d_name d) with
                | None => c
                | Some def =>
                    snd (fold_left (fun st a =>
                      ([], if scan_args (arg_name a) (fst st) then snd st else add_error (EUnknownDirArg (arg_name a) (d_name d)) (snd st)))
                      (d_args d) (dd_args def, c))
                end
            end
        end
    | _ => c
    end).

(** rule_possible_names.go:44-50. *)
Definition is_valid_name (n : bytes) : bool :=
  match n with
  | a :: b :: _ => negb (Ascii.eqb a "_"%char) && negb (Ascii.eqb b "_"%char)
  | _ => true
  end.
(** rule_possible_names.go:12-41. *)
Definition check_name (n : bytes) (c : ctx) : ctx := if is_valid_name n then c else add_error (ETwoUnderscores n) c.
Definition PossibleNames (w : walker ctx) : walker ctx :=
  add_handler Enter TTypeDefinition (fun c n => match n with NTypeDefinition t => check_name (t_name t) c | _ => c end)
 (add_handler Enter TFieldDefinition (fun c n => match n with NFieldDefinition f => check_name (fd_name f) c | _ => c end)
 (add_handler Enter TDirectiveDefinition (fun c n => match n with NDirectiveDefinition d => check_name (dd_name d) c | _ => c end)
 (add_handler Enter TInputValueDefinition (fun c n => match n with NInputValueDefinition i => check_name (i_name i) c | _ => c end) w))).

(** rule_possible_type_extensions.go:8-32 (the kind maps are the identity). *)
Definition tkind_eqb (a b : tkindT) : bool :=
  match a, b with
  | KScalar, KScalar | KObject, KObject | KInterface, KInterface | KUnion, KUnion | KEnum, KEnum | KInputObject, KInputObject => true
  | _, _ => false
  end.
Definition PossibleTypeExtensions : walker ctx -> walker ctx :=
  add_handler Enter TTypeExtension (fun c n =>
    match n with
    | NTypeExtension x =>
        match c_sdl c with
        | None => crash c
        | Some s =>
            match ctx_type c s (t_name x) with
            | Some def => if tkind_eqb (t_kind x) (t_kind def) then c else add_error (EExtendKind (t_name x) (kind_string (t_kind def))) c
            | None => add_error (EExtendUnknown (t_name x)) c
            end
        end
    | _ => c
    end).

(** ast.go:312-317: the [NonNullable] field (false on [TListNil]). *)
Definition ty_nonnull (t : ty) : bool := match t with TNamed _ nn | TList _ nn => nn | TListNil => false end.
(** rule_provided_required_arguments.go:13-43. *)
Definition ProvidedRequiredArgumentsOnDirectives : walker ctx -> walker ctx :=
  add_handler Enter TDirective (fun c n =>
    match n with
    | NDirective d =>
        let given := map arg_name (d_args d) in
        let lookup :=
          match mget (d_name d) (sc_dirs (c_schema c)) with
          | Some x => Some (Some x)
          | None =>
              match c_sdl c with
              | None => None
              | Some s => match mget (d_name d) (sd_dirs s) with
                          | Some x => Some (Some x)
                          | None => Some (mget (d_name d) specified_directives)
                          end
              end
          end in
        match lookup with
        | None => crash c
        | Some None => c
        | Some (Some def) =>
            each (fun iv c =>
              if negb (inb (i_name iv) given) && (match i_default iv with None => true | Some _ => false end) && ty_nonnull (i_type iv)
              then add_error (EMissingArg (d_name d) (i_name iv) (ty_string (i_type iv))) c else c) (dd_args def) c
        end
    | _ => c
    end).

(** rules.go:47-67. *)
Definition SpecifiedSDL : list (walker ctx -> walker ctx) :=
  [UniqueOperationTypes; UniqueDirectivesPerLocation; UniqueArgumentNames; UniqueInputFieldNames;
   KnownArgumentNamesOnDirectives; KnownDirectives; KnownTypeNames; PossibleNames; PossibleTypeExtensions;
   ProvidedRequiredArgumentsOnDirectives].

(** validate.go:12-18 [Validate], 21-27 [ValidateSDL] with the default walkers (graphqlparser.go:11-16).  The document that
    ValidateSDL walks is the one that the context has renamed operations in. *)
Definition validate (doc : document) (s : option schema) : ctx := walk (new_walker Specified) doc (new_context doc s).
Definition validate_sdl (doc : document) (s : option schema) : ctx := let c := new_sdl_context doc s in walk (new_walker SpecifiedSDL) (c_doc c) c.

(** rule_unique_operation_names.go is in neither list; it is modelled in OpNames.v. *)
