(** * SchemaBuild: model of validation/schema_build.go.

    The results of Join are discarded by the code, so what counts is its effect on the receiver: none on a nil list,
    otherwise the receiver becomes the concatenation (LinkedList.v, [join]; C17_join, C17_join_on_nil_refuted).
    [ord] is the map of type extensions in the order in which Go's range visits it: any permutation of the map.
    Aliasing: [ctx.Schema] is the schema given by the caller, so [c_schema] afterwards is also what the caller's schema has
    become.  SIMPLIFIED: the definitions are shared with the document, which is changed by Join too; [c_doc] is not
    (what becomes of the document, and of a second build, is modelled in Merge.v). *)
From Verif Require Import Base AST Walker Context Rules.

(** ast/lists.go [Join], on the receiver. *)
Definition joined {X} (l m : list X) : list X := match l with [] => [] | _ => l ++ m end.
Definition with_tdirs (d : list directive) (t : tydef) : tydef := mkTd (t_kind t) (t_desc t) (t_name t) (t_impl t) d (t_fields t) (t_members t) (t_values t) (t_inputs t).
Definition with_fields (f : list fielddef) (t : tydef) : tydef := mkTd (t_kind t) (t_desc t) (t_name t) (t_impl t) (t_dirs t) f (t_members t) (t_values t) (t_inputs t).
Definition with_impl (i : list ty) (t : tydef) : tydef := mkTd (t_kind t) (t_desc t) (t_name t) i (t_dirs t) (t_fields t) (t_members t) (t_values t) (t_inputs t).
Definition with_members (m : list ty) (t : tydef) : tydef := mkTd (t_kind t) (t_desc t) (t_name t) (t_impl t) (t_dirs t) (t_fields t) m (t_values t) (t_inputs t).
Definition with_values (v : list enumval) (t : tydef) : tydef := mkTd (t_kind t) (t_desc t) (t_name t) (t_impl t) (t_dirs t) (t_fields t) (t_members t) v (t_inputs t).
Definition with_inputs (i : list ivdef) (t : tydef) : tydef := mkTd (t_kind t) (t_desc t) (t_name t) (t_impl t) (t_dirs t) (t_fields t) (t_members t) (t_values t) i.

(** schema_build.go:141-156: the body of the loop over the extensions of one type. *)
Definition merge_ext (t x : tydef) : tydef :=
  let t := with_tdirs (joined (t_dirs t) (t_dirs x)) t in
  match t_kind x with
  | KObject => let t := with_fields (joined (t_fields t) (t_fields x)) t in with_impl (joined (t_impl t) (t_impl x)) t
  | KInterface => with_fields (joined (t_fields t) (t_fields x)) t
  | KUnion => with_members (joined (t_members t) (t_members x)) t
  | KEnum => with_values (joined (t_values t) (t_values x)) t
  | KInputObject => with_inputs (joined (t_inputs t) (t_inputs x)) t
  | KScalar => t
  end.
Definition set_schema (s : schema) (c : ctx) : ctx :=
  mkCtx (c_doc c) (c_errors c) s (c_sdl c) (c_ops c) (c_frags c) (c_refs c) (c_vars c) (c_exec c) (c_crash c).
Definition with_sctypes (m : emap tydef) (s : schema) : schema := mkSchema (sc_def s) (sc_query s) (sc_mutation s) (sc_subscription s) (sc_dirs s) m.
Definition with_scdirs (m : emap dirdef) (s : schema) : schema := mkSchema (sc_def s) (sc_query s) (sc_mutation s) (sc_subscription s) m (sc_types s).
(** Writing through the pointer that [ctx.TypeDefinition] (context.go:125-141) returned. *)
Definition put_type (n : bytes) (t : tydef) (s : sdl) (c : ctx) : ctx :=
  if sd_extending s && mem n (sc_types (c_schema c))
  then set_schema (with_sctypes (mset n t (sc_types (c_schema c))) (c_schema c)) c
  else set_sdl (Some (with_types (mset n t (sd_types s)) s)) c.
(** schema_build.go:132-157 [mergeTypeExtensions]. *)
Fixpoint merge_types (ord : emap (list tydef)) (c : ctx) : ctx :=
  match ord with
  | [] => c
  | (n, xs) :: ord =>
      match c_sdl c with
      | None => crash c
      | Some s =>
          match ctx_type c s n with
          | None => c
          | Some t => merge_types ord (put_type n (fold_left merge_ext xs t) s c)
          end
      end
  end.
(** schema_build.go:119-129 [mergeSchemaExtensions]. *)
Definition merge_schema (c : ctx) : ctx :=
  match c_sdl c with
  | None => crash c
  | Some s =>
      match sd_schema s with
      | None => c
      | Some d => set_sdl (Some (with_schema (Some (fold_left (fun d x => mkSd (joined (s_dirs d) (s_dirs x)) (joined (s_ops d) (s_ops x))) (sd_schemaexts s) d)) s)) c
      end
  end.
(** schema_build.go:84-116 [buildSchemaDefinition]. *)
Definition set_root (s : schema) (o : optype) : schema :=
  match ot_op o with
  | Query => mkSchema (sc_def s) (Some (ot_type o)) (sc_mutation s) (sc_subscription s) (sc_dirs s) (sc_types s)
  | Mutation => mkSchema (sc_def s) (sc_query s) (Some (ot_type o)) (sc_subscription s) (sc_dirs s) (sc_types s)
  | Subscription => mkSchema (sc_def s) (sc_query s) (sc_mutation s) (Some (ot_type o)) (sc_dirs s) (sc_types s)
  end.
Definition default_schema : schemadef := mkSd [] [mkOt Query (TNamed (B "Query") false)].
Definition build_definition (c : ctx) : ctx :=
  match c_sdl c with
  | None => crash c
  | Some s =>
      let d := match sd_schema s with Some d => d | None => default_schema end in
      let sch := fold_left set_root (s_ops d) (c_schema c) in
      set_schema (mkSchema (Some d) (sc_query sch) (sc_mutation sch) (sc_subscription sch) (sc_dirs sch) (sc_types sch)) c
  end.
(** schema_build.go:38-43, 60-65: the built-in entries whose name is missing are added. *)
Definition add_missing {V} (extra m : emap V) : emap V :=
  fold_left (fun m p => if mem (fst p) m then m else mset (fst p) (snd p) m) extra m.
(** schema_build.go:34-56 [buildDirectives]; not extending, the map of the SDL context becomes the schema's. *)
Definition build_directives (c : ctx) : ctx :=
  match c_sdl c with
  | None => crash c
  | Some s =>
      if sd_extending s then set_schema (with_scdirs (sd_dirs s) (c_schema c)) c
      else let m := add_missing specified_directives (sd_dirs s) in
           set_sdl (Some (with_dirs m s)) (set_schema (with_scdirs m (c_schema c)) c)
  end.
(** schema_build.go:59-81 [buildTypes]. *)
Definition build_types (c : ctx) : ctx :=
  match c_sdl c with
  | None => crash c
  | Some s =>
      if sd_extending s then set_schema (with_sctypes (sd_types s) (c_schema c)) c
      else let m := add_missing specified_types (sd_types s) in
           set_sdl (Some (with_types m s)) (set_schema (with_sctypes m (c_schema c)) c)
  end.
(** schema_build.go:19-32 [BuildSchema], [buildSchema]. *)
Definition build_schema (ord : emap (list tydef)) (c : ctx) : ctx :=
  build_types (build_directives (build_definition (merge_types ord (merge_schema c)))).
