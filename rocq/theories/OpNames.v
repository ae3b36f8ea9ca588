(** * OpNames: the rule UniqueOperationNames, which is exported but in neither of the default rule lists. *)
From Verif Require Import Base AST Walker WalkSpec Context Rules.

(** validation/context.go:301-303, 338: [ctx.OperationDefinitions[odef.Name] = odef] over the (renamed) definitions in
    order.  Simplified: a pointer is represented by the position of its definition in the document, the map is a parameter
    of the rule instead of a field of the context. *)
Definition op_pointers (doc : document) : emap nat :=
  fold_left (fun m p => match def_body (snd p) with DOp o => mset (o_name o) (fst p) m | _ => m end) (numbered (doc_defs doc)) [].
(** validation/rules/rule_unique_operation_names.go:9-18.  Simplified: the handler is attached to the executable definition
    that directly contains the operation, because that is the node which carries the position. *)
Definition UniqueOperationNames (ops : emap nat) : walker ctx -> walker ctx :=
  add_handler Enter TExecutable (fun c n =>
    match n with
    | NExecutable i (DOp o) =>
        match mget (o_name o) ops with
        | Some j => if Nat.eqb j i then c else add_error (EDupOperationName (o_name o)) c
        | None => c
        end
    | _ => c
    end).

(** validate.go:21-27 [ValidateSDL] with a walker made of the default SDL rules and this one. *)
Definition validate_sdl_opnames (doc : document) (s : option schema) : ctx :=
  let c := new_sdl_context doc s in
  walk (new_walker (SpecifiedSDL ++ [UniqueOperationNames (op_pointers (c_doc c))])) (c_doc c) c.
(** validate.go:12-18 [Validate] with a walker made of the default rules and this one; [NewContext] (context.go:22-34) leaves
    [OperationDefinitions] nil, and looking up a nil map finds nothing. *)
Definition validate_opnames (doc : document) (s : option schema) : ctx :=
  walk (new_walker (Specified ++ [UniqueOperationNames []])) doc (new_context doc s).
