(** * Context: model of validation/context.go, validation/errors.go, graphql/schema.go and graphql/builtin.go.

    Go maps are association lists with unique keys (a lookup is the only thing the modelled code does with them except
    where it iterates, see SchemaBuild.v and SchemaValidate.v).  Pointers to executable definitions, used as map keys, are
    the positions of the definitions in the document.  [c_crash] records that a nil pointer was dereferenced (or that fuel
    ran out): the theorems show it stays false. *)
From Verif Require Import Base AST Walker.

(** ** Go maps *)
Definition emap (V : Type) := list (bytes * V).
Fixpoint mget {V} (k : bytes) (m : emap V) : option V :=
  match m with [] => None | (k', v) :: m => if beqb k k' then Some v else mget k m end.
Fixpoint mset {V} (k : bytes) (v : V) (m : emap V) : emap V :=
  match m with [] => [(k, v)] | (k', v') :: m => if beqb k k' then (k, v) :: m else (k', v') :: mset k v m end.
Definition mem {V} (k : bytes) (m : emap V) : bool := match mget k m with Some _ => true | None => false end.
(** maps keyed by pointers to executable definitions (nil or a definition of the document) *)
Definition pkey := option nat.
Definition pkey_eqb (a b : pkey) : bool :=
  match a, b with None, None => true | Some x, Some y => Nat.eqb x y | _, _ => false end.
Definition pmap (V : Type) := list (pkey * list V).
Fixpoint pget {V} (k : pkey) (m : pmap V) : list V :=
  match m with [] => [] | (k', v) :: m => if pkey_eqb k k' then v else pget k m end.
Fixpoint pset {V} (k : pkey) (v : list V) (m : pmap V) : pmap V :=
  match m with [] => [(k, v)] | (k', v') :: m => if pkey_eqb k k' then (k, v) :: m else (k', v') :: pset k v m end.

(** ** graphql/schema.go:6-23 *)
Record schema := mkSchema { sc_def : option schemadef; sc_query : option ty; sc_mutation : option ty; sc_subscription : option ty;
                            sc_dirs : emap dirdef; sc_types : emap tydef }.
(** [&graphql.Schema{}] (context.go:23,40). *)
Definition empty_schema : schema := mkSchema None None None None [] [].

(** ** graphql/builtin.go *)
Definition if_arg (desc : bytes) : ivdef := mkIv desc (B "if") (TNamed (B "Boolean") true) None [].
(** builtin.go:7-24 *)
Definition skip_directive : dirdef :=
  mkDd (B "Directs the executor to skip this field or fragment when the `if` argument is true.") (B "skip")
    [if_arg (B "Skipped when true.")] (N.lor LField (N.lor LFragmentSpread LInlineFragment)).
(** builtin.go:25-41 *)
Definition include_directive : dirdef :=
  mkDd (B "Directs the executor to include this field or fragment only when the `if` argument is true.") (B "include")
    [if_arg (B "Included when true.")] (N.lor LField (N.lor LFragmentSpread LInlineFragment)).
(** builtin.go:42-63 *)
Definition deprecated_directive : dirdef :=
  mkDd (B "Marks an element of a GraphQL schema as no longer supported.") (B "deprecated")
    [mkIv (B "Explains why this element was deprecated, usually also including a suggestion for how to access supported similar data. Formatted using the Markdown syntax (as specified by [CommonMark](https://commonmark.org/).")
      (B "reason") (TNamed (B "String") false) (Some (VString (B "No longer supported"))) []]
    (N.lor LFieldDefinition LEnumValue).
(** builtin.go:65-77 *)
Definition scalar_type (n : bytes) : tydef := mkTd KScalar [] n [] [] [] [] [] [].
(** builtin.go:85-91 [SpecifiedDirectives] *)
Definition specified_directives : emap dirdef :=
  [(B "skip", skip_directive); (B "include", include_directive); (B "deprecated", deprecated_directive)].
(** builtin.go:94-99 [SpecifiedTypes] *)
Definition specified_types : emap tydef := [(B "ID", scalar_type (B "ID")); (B "String", scalar_type (B "String"))].

(** ** ast.go *)
(** ast.go:146-164 [OperationDefinitionKind.String] *)
Definition op_string (o : opkind) : bytes :=
  match o with Query => B "query" | Mutation => B "mutation" | Subscription => B "subscription" end.
(** ast.go:426-445 [TypeDefinitionKind.String] *)
Definition kind_string (k : tkindT) : bytes :=
  match k with KScalar => B "scalar" | KObject => B "object" | KInterface => B "interface" | KUnion => B "union"
          | KEnum => B "enum" | KInputObject => B "input object" end.
(** ast.go:319-333 [Type.String]; the [NamedType] of a list type is the empty string. *)
Fixpoint ty_string (t : ty) : bytes :=
  match t with
  | TNamed n nn => n ++ (if nn then B "!" else [])
  | TList t nn => B "[" ++ ty_string t ++ B "]" ++ (if nn then B "!" else [])
  | TListNil => []
  end.

(** ** validation/errors.go: one constructor per error function ([EMsg]: the errors schema_validate.go builds in place). *)
Inductive err :=
| EAnonNotAlone | ESchemaInExtension | EDupArg (n : bytes) | EDupDirective (n : bytes) | EDupDirectiveName (n : bytes)
| EDupInputField (n : bytes) | EDupOperationName (n : bytes) | EDupOperationType (o : bytes) | EDupTypeName (n : bytes)
| EExistedDirective (n : bytes) | EExistedOperationType (o : bytes) | EExistedType (n : bytes)
| EExtendKind (n k : bytes) | EExtendUnknown (n : bytes) | EInvalidName (n : bytes) | EMisplaced (n : bytes) (l : dirloc)
| EMissingArg (d a t : bytes) | ETwoUnderscores (n : bytes) | ENonExecutable (n : bytes) | EReserved (n : bytes)
| ESchemaNotAlone | EUnknownDirArg (a d : bytes) | EUnknownDirective (n : bytes) | EUnknownType (n : bytes)
| EUnusedVariable (v o : bytes) | EMsg (m : bytes).
Definition q (s : bytes) : bytes := B """" ++ s ++ B """".
(** errors.go:10-237: the message of each error (locations and paths are never set). *)
Definition message (e : err) : bytes :=
  match e with
  | EAnonNotAlone => B "This anonymous operation must be the only defined operation."
  | ESchemaInExtension => B "Cannot define a new schema within a schema extension."
  | EDupArg n => B "There can be only one argument named " ++ q n ++ B "."
  | EDupDirective n => B "The directive " ++ q n ++ B " can only be used once at this location."
  | EDupDirectiveName n => B "There can be only one directive named " ++ q n ++ B "."
  | EDupInputField n => B "There can be only one input field named " ++ q n ++ B "."
  | EDupOperationName n => B "There can be only one operation named " ++ n ++ B "."
  | EDupOperationType o => B "There can be only one " ++ o ++ B " type in schema."
  | EDupTypeName n => B "There can be only one type named " ++ n ++ B "."
  | EExistedDirective n => B "Directive " ++ q n ++ B " already exists in the schema. It cannot be redefined."
  | EExistedOperationType o => B "Type for " ++ o ++ B " already defined in the schema. It cannot be redefined."
  | EExistedType n => B "Type " ++ n ++ B " already exists in the schema. It cannot also be defined in this type definition."
  | EExtendKind n k => B "Cannot extend non-" ++ k ++ B "type " ++ q n ++ B "."
  | EExtendUnknown n => B "Cannot extend type " ++ q n ++ B " because it is not defined."
  | EInvalidName n => B "Name must match /^[_a-zA-Z][_a-zA-Z0-9]*$/ but " ++ q n ++ B " does not."
  | EMisplaced n l => B "Directive " ++ q n ++ B " may not be used on " ++ location_name l ++ B "."
  | EMissingArg d a t => B "Directive " ++ q d ++ B " argument " ++ q a ++ B " of type " ++ q t ++ B " is required, but it was not provided"
  | ETwoUnderscores n => B "Name " ++ q n ++ B " must not begin with ""__"" (two underscores)"
  | ENonExecutable n => B "The " ++ q n ++ B " definition is not executable."
  | EReserved n => B "Name " ++ q n ++ B " must not begin with ""__"" which is reserved by GraphQL introspection."
  | ESchemaNotAlone => B "Must provide only one schema definition."
  | EUnknownDirArg a d => B "Unknown argument " ++ q a ++ B " on directive " ++ q d ++ B "."
  | EUnknownDirective n => B "Unknown directive " ++ q n ++ B "."
  | EUnknownType n => B "Unknown type " ++ q n ++ B "."
  | EUnusedVariable v o => B "Variable " ++ v ++ B " is never used" ++ match o with [] => [] | _ => B " in operation " ++ o end
  | EMsg m => m
  end.

(** ** Contexts *)
(** context.go:199-219 [SDLContext]; [KnownEnumValueNames], [KnownFieldNames] are never used. *)
Record sdl := mkSdl { sd_dirs : emap dirdef; sd_types : emap tydef; sd_exts : emap (list tydef); sd_schema : option schemadef;
                      sd_schemaexts : list schemadef; sd_query : bool; sd_mutation : bool; sd_subscription : bool; sd_extending : bool }.
(** context.go:59-87 [Context].  [c_errors]: the head is the error added last ([AddError] prepends, ForEach starts there). *)
Record ctx := mkCtx { c_doc : document; c_errors : list err; c_schema : schema; c_sdl : option sdl; c_ops : emap opdef;
                      c_frags : emap fragdef; c_refs : pmap nat; c_vars : pmap bytes; c_exec : pkey; c_crash : bool }.
Definition set_errors (e : list err) (c : ctx) : ctx :=
  mkCtx (c_doc c) e (c_schema c) (c_sdl c) (c_ops c) (c_frags c) (c_refs c) (c_vars c) (c_exec c) (c_crash c).
Definition set_sdl (s : option sdl) (c : ctx) : ctx :=
  mkCtx (c_doc c) (c_errors c) (c_schema c) s (c_ops c) (c_frags c) (c_refs c) (c_vars c) (c_exec c) (c_crash c).
Definition set_ops (o : emap opdef) (c : ctx) : ctx :=
  mkCtx (c_doc c) (c_errors c) (c_schema c) (c_sdl c) o (c_frags c) (c_refs c) (c_vars c) (c_exec c) (c_crash c).
Definition set_frags (f : emap fragdef) (c : ctx) : ctx :=
  mkCtx (c_doc c) (c_errors c) (c_schema c) (c_sdl c) (c_ops c) f (c_refs c) (c_vars c) (c_exec c) (c_crash c).
Definition set_refs (r : pmap nat) (c : ctx) : ctx :=
  mkCtx (c_doc c) (c_errors c) (c_schema c) (c_sdl c) (c_ops c) (c_frags c) r (c_vars c) (c_exec c) (c_crash c).
Definition set_vars (v : pmap bytes) (c : ctx) : ctx :=
  mkCtx (c_doc c) (c_errors c) (c_schema c) (c_sdl c) (c_ops c) (c_frags c) (c_refs c) v (c_exec c) (c_crash c).
Definition set_exec (k : pkey) (c : ctx) : ctx :=
  mkCtx (c_doc c) (c_errors c) (c_schema c) (c_sdl c) (c_ops c) (c_frags c) (c_refs c) (c_vars c) k (c_crash c).
Definition crash (c : ctx) : ctx :=
  mkCtx (c_doc c) (c_errors c) (c_schema c) (c_sdl c) (c_ops c) (c_frags c) (c_refs c) (c_vars c) (c_exec c) true.
(** context.go:89-92 [AddError]. *)
Definition add_error (e : err) (c : ctx) : ctx := set_errors (e :: c_errors c) c.

(** context.go:95-117 [DirectiveDefinition]. *)
Definition ctx_directive (c : ctx) (s : sdl) (n : bytes) : option dirdef :=
  let in_schema := if sd_extending s then mget n (sc_dirs (c_schema c)) else None in
  let d := match in_schema with Some d => Some d | None => mget n (sd_dirs s) end in
  match d with Some d => Some d | None => mget n specified_directives end.
(** context.go:120-122 [Fragment]. *)
Definition ctx_fragment (c : ctx) (n : bytes) : option fragdef := mget n (c_frags c).
(** context.go:125-141 [TypeDefinition]. *)
Definition ctx_type (c : ctx) (s : sdl) (n : bytes) : option tydef :=
  let in_schema := if sd_extending s then mget n (sc_types (c_schema c)) else None in
  match in_schema with Some d => Some d | None => mget n (sd_types s) end.

(** ** Query contexts: the decorating walk (context.go:221-288) *)
(** context.go:222-226 *)
Definition setExecutableDefinition : walker ctx -> walker ctx :=
  add_handler Enter TExecutable (fun c n => match n with NExecutable i _ => set_exec (Some i) c | _ => c end).
(** context.go:229-237 *)
Definition setFragments : walker ctx -> walker ctx :=
  add_handler Enter TFragment (fun c n => match n with NFragment f => set_frags (mset (f_name f) f (c_frags c)) c | _ => c end).
(** context.go:240-269 *)
Definition inNat (x : nat) (l : list nat) : bool := existsb (Nat.eqb x) l.
Definition setReferencedFragments : walker ctx -> walker ctx :=
  add_handler Enter TFragmentSpread (fun c n =>
    match n with
    | NFragmentSpread (SSpread name _) =>
        each (fun p c =>
          match def_body (snd p) with
          | DFrag f =>
              if beqb (f_name f) name then
                let l := pget (c_exec c) (c_refs c) in
                if inNat (fst p) l then c else set_refs (pset (c_exec c) (l ++ [fst p]) (c_refs c)) c
              else c
          | _ => c
          end) (numbered (doc_defs (c_doc c))) c
    | _ => c
    end).
(** context.go:272-288 *)
Definition setVariableUsages : walker ctx -> walker ctx :=
  add_handler Enter TVariableValue (fun c n =>
    match n with
    | NVariableValue (VVar v) =>
        let l := pget (c_exec c) (c_vars c) in
        if inb v l then c else set_vars (pset (c_exec c) (l ++ [v]) (c_vars c)) c
    | _ => c
    end).
(** context.go:8-16 *)
Definition query_context_walker : walker ctx :=
  new_walker [setFragments; setExecutableDefinition; setReferencedFragments; setVariableUsages].
(** context.go:18-34 [NewContext]; [None] is a nil schema. *)
Definition new_context (doc : document) (s : option schema) : ctx :=
  walk query_context_walker doc
    (mkCtx doc [] (match s with None => empty_schema | Some s => s end) None [] [] [] [] None false).

(** context.go:144-146 [VariableUsages], 174-176 [ReferencedFragments]. *)
Definition variable_usages (c : ctx) (i : nat) : list bytes := pget (Some i) (c_vars c).
Definition referenced_fragments (c : ctx) (i : nat) : list nat := pget (Some i) (c_refs c).

(** context.go:160-174 [recursiveVariableUsagesIter]; sets are lists, [None] is exhausted fuel. *)
Definition addset (x : bytes) (l : list bytes) : list bytes := if inb x l then l else x :: l.
Fixpoint rvu (fuel : nat) (c : ctx) (i : nat) (st : list bytes * list nat) : option (list bytes * list nat) :=
  match fuel with
  | O => None
  | S f =>
      fold_left (fun o rd =>
        match o with
        | None => None
        | Some (agg, seen) => if inNat rd seen then o else rvu f c rd (agg, rd :: seen)
        end)
        (referenced_fragments c i)
        (Some (fold_left (fun agg v => addset v agg) (variable_usages c i) (fst st), snd st))
  end.
Definition ctx_fuel (c : ctx) : nat := S (S (List.length (doc_defs (c_doc c)))).
(** context.go:149-158 [RecursiveVariableUsages]. *)
Definition recursive_variable_usages (c : ctx) (i : nat) : option (list bytes) :=
  option_map fst (rvu (ctx_fuel c) c i ([], [])).

(** context.go:186-197 [recursivelyReferencedFragmentsIter]. *)
Definition addnat (x : nat) (l : list nat) : list nat := if inNat x l then l else x :: l.
Fixpoint rrf (fuel : nat) (c : ctx) (i : nat) (st : list nat * list nat) : option (list nat * list nat) :=
  match fuel with
  | O => None
  | S f =>
      fold_left (fun o rd =>
        match o with
        | None => None
        | Some (agg, seen) =>
            let agg := addnat rd agg in
            if inNat rd seen then Some (agg, seen) else rrf f c rd (agg, rd :: seen)
        end)
        (referenced_fragments c i) (Some st)
  end.
(** context.go:177-184 [RecursivelyReferencedFragments] (a nil map reads as the empty one). *)
Definition recursively_referenced_fragments (c : ctx) (i : nat) : option (list nat) :=
  match referenced_fragments c i with
  | [] => Some []
  | _ => option_map fst (rrf (ctx_fuel c) c i ([], []))
  end.

(** ** SDL contexts *)
(** validation/context.go:333-338: an anonymous operation is renamed.  The definition is held by pointer, so the document
    changes too. *)
Definition name_operation (o : opdef) : opdef :=
  match o_name o with [] => mkOp (o_kind o) (B "$$query") (o_vars o) (o_dirs o) (o_sels o) | _ => o end.
Definition name_definition (d : definition) : definition :=
  match def_body d with DOp o => mkDef (def_line d) (def_col d) (DOp (name_operation o)) | _ => d end.
Definition name_document (doc : document) : document :=
  mkDoc (map name_definition (doc_defs doc)) (n_ops doc) (n_frags doc) (n_dirdefs doc) (n_schemas doc) (n_types doc) (n_schemaexts doc) (n_typeexts doc).
Definition set_doc (d : document) (c : ctx) : ctx :=
  mkCtx d (c_errors c) (c_schema c) (c_sdl c) (c_ops c) (c_frags c) (c_refs c) (c_vars c) (c_exec c) (c_crash c).
(** context.go:305-411 [PrepareContextSDL]: the body of the ForEach. *)
Definition with_dirs (d : emap dirdef) (s : sdl) : sdl :=
  mkSdl d (sd_types s) (sd_exts s) (sd_schema s) (sd_schemaexts s) (sd_query s) (sd_mutation s) (sd_subscription s) (sd_extending s).
Definition with_types (t : emap tydef) (s : sdl) : sdl :=
  mkSdl (sd_dirs s) t (sd_exts s) (sd_schema s) (sd_schemaexts s) (sd_query s) (sd_mutation s) (sd_subscription s) (sd_extending s).
Definition with_exts (t : emap (list tydef)) (s : sdl) : sdl :=
  mkSdl (sd_dirs s) (sd_types s) t (sd_schema s) (sd_schemaexts s) (sd_query s) (sd_mutation s) (sd_subscription s) (sd_extending s).
Definition with_schema (d : option schemadef) (s : sdl) : sdl :=
  mkSdl (sd_dirs s) (sd_types s) (sd_exts s) d (sd_schemaexts s) (sd_query s) (sd_mutation s) (sd_subscription s) (sd_extending s).
Definition with_schemaexts (l : list schemadef) (s : sdl) : sdl :=
  mkSdl (sd_dirs s) (sd_types s) (sd_exts s) (sd_schema s) l (sd_query s) (sd_mutation s) (sd_subscription s) (sd_extending s).
Definition with_flag (o : opkind) (s : sdl) : sdl :=
  mkSdl (sd_dirs s) (sd_types s) (sd_exts s) (sd_schema s) (sd_schemaexts s)
    (match o with Query => true | _ => sd_query s end) (match o with Mutation => true | _ => sd_mutation s end)
    (match o with Subscription => true | _ => sd_subscription s end) (sd_extending s).
Definition flag (o : opkind) (s : sdl) : bool :=
  match o with Query => sd_query s | Mutation => sd_mutation s | Subscription => sd_subscription s end.
Definition prepare1 (c : ctx) (d : definition) : ctx :=
  match c_sdl c with
  | None => crash c
  | Some s =>
      match def_body d with
      | DOp o =>
          let o := name_operation o in
          set_ops (mset (o_name o) o (c_ops c)) c
      | DFrag f => set_frags (mset (f_name f) f (c_frags c)) c
      | DDir x =>
          if mem (dd_name x) (sc_dirs (c_schema c)) then add_error (EExistedDirective (dd_name x)) c
          else if mem (dd_name x) (sd_dirs s) then add_error (EDupDirectiveName (dd_name x)) c
          else set_sdl (Some (with_dirs (mset (dd_name x) x (sd_dirs s)) s)) c
      | DSchema x =>
          if sd_extending s then add_error ESchemaInExtension c
          else match sd_schema s with
               | Some _ => add_error ESchemaNotAlone c
               | None => set_sdl (Some (with_schema (Some x) s)) c
               end
      | DType x =>
          if mem (t_name x) (sc_types (c_schema c)) then add_error (EExistedType (t_name x)) c
          else if mem (t_name x) (sd_types s) then add_error (EDupTypeName (t_name x)) c
          else set_sdl (Some (with_types (mset (t_name x) x (sd_types s)) s)) c
      | XSchema x => set_sdl (Some (with_schemaexts (sd_schemaexts s ++ [x]) s)) c
      | XType x =>
          let l := match mget (t_name x) (sd_exts s) with Some l => l | None => [] end in
          set_sdl (Some (with_exts (mset (t_name x) (l ++ [x]) (sd_exts s)) s)) c
      end
  end.
Definition empty_sdl (extending : bool) : sdl := mkSdl [] [] [] None [] false false false extending.
(** The renamed operations are written into the document when the loop is done (nothing in the loop reads them). *)
Definition prepare (c : ctx) : ctx := set_doc (name_document (c_doc c)) (fold_left prepare1 (doc_defs (c_doc c)) c).
(** context.go:36-56 [NewSDLContext]. *)
Definition new_sdl_context (doc : document) (s : option schema) : ctx :=
  prepare (mkCtx doc [] (match s with None => empty_schema | Some s => s end)
    (Some (empty_sdl (match s with None => false | Some _ => true end))) [] [] [] [] None false).
