(** * Merge: a second model of the merging of extensions — validation/schema_build.go:119-157 — on the memory that the
    parsed document and the schema share.

    SchemaBuild.v says what the merged definitions contain; here the lists are the linked lists of ast/lists.go
    (LinkedList.v) and Join changes their cells in place, so that one sees what becomes of the document, and of a second
    build.  A definition or extension is a record of pointers.  SIMPLIFIED: the cells are kept in one heap per field of the
    definitions (the lists of different fields never share cells: the parser allocates each list by itself). *)
From Verif Require Import Base AST LinkedList.
Import AST.

Record store := mkStore { h_dirs : @heap directive; h_impl : @heap ty; h_fields : @heap fielddef; h_members : @heap ty;
                          h_values : @heap enumval; h_inputs : @heap ivdef; h_sdirs : @heap directive; h_ops : @heap optype }.
(** ast.go:416-458 [TypeDefinition], 543-563 [TypeExtension]: the list fields. *)
Record tnode := mkT { n_kind : tkindT; n_dirs : ptr; n_impl : ptr; n_fields : ptr; n_members : ptr; n_values : ptr; n_inputs : ptr }.
(** ast.go:397-406 [SchemaDefinition], [SchemaExtension]. *)
Record snode := mkS { n_sdirs : ptr; n_sops : ptr }.

Definition on_dirs (f : @heap directive -> out heap) (s : store) : out store :=
  obind (f (h_dirs s)) (fun h => Done (mkStore h (h_impl s) (h_fields s) (h_members s) (h_values s) (h_inputs s) (h_sdirs s) (h_ops s))).
Definition on_impl (f : @heap ty -> out heap) (s : store) : out store :=
  obind (f (h_impl s)) (fun h => Done (mkStore (h_dirs s) h (h_fields s) (h_members s) (h_values s) (h_inputs s) (h_sdirs s) (h_ops s))).
Definition on_fields (f : @heap fielddef -> out heap) (s : store) : out store :=
  obind (f (h_fields s)) (fun h => Done (mkStore (h_dirs s) (h_impl s) h (h_members s) (h_values s) (h_inputs s) (h_sdirs s) (h_ops s))).
Definition on_members (f : @heap ty -> out heap) (s : store) : out store :=
  obind (f (h_members s)) (fun h => Done (mkStore (h_dirs s) (h_impl s) (h_fields s) h (h_values s) (h_inputs s) (h_sdirs s) (h_ops s))).
Definition on_values (f : @heap enumval -> out heap) (s : store) : out store :=
  obind (f (h_values s)) (fun h => Done (mkStore (h_dirs s) (h_impl s) (h_fields s) (h_members s) h (h_inputs s) (h_sdirs s) (h_ops s))).
Definition on_inputs (f : @heap ivdef -> out heap) (s : store) : out store :=
  obind (f (h_inputs s)) (fun h => Done (mkStore (h_dirs s) (h_impl s) (h_fields s) (h_members s) (h_values s) h (h_sdirs s) (h_ops s))).
Definition on_sdirs (f : @heap directive -> out heap) (s : store) : out store :=
  obind (f (h_sdirs s)) (fun h => Done (mkStore (h_dirs s) (h_impl s) (h_fields s) (h_members s) (h_values s) (h_inputs s) h (h_ops s))).
Definition on_ops (f : @heap optype -> out heap) (s : store) : out store :=
  obind (f (h_ops s)) (fun h => Done (mkStore (h_dirs s) (h_impl s) (h_fields s) (h_members s) (h_values s) (h_inputs s) (h_sdirs s) h)).

(** schema_build.go:140-155: one extension [x] of the type definition [t]. *)
Definition merge_one (n : nat) (t x : tnode) (s : store) : out store :=
  obind (on_dirs (fun h => join n h (n_dirs t) (n_dirs x)) s) (fun s =>
  match n_kind x with
  | KObject => obind (on_fields (fun h => join n h (n_fields t) (n_fields x)) s) (fun s => on_impl (fun h => join n h (n_impl t) (n_impl x)) s)
  | KInterface => on_fields (fun h => join n h (n_fields t) (n_fields x)) s
  | KUnion => on_members (fun h => join n h (n_members t) (n_members x)) s
  | KEnum => on_values (fun h => join n h (n_values t) (n_values x)) s
  | KInputObject => on_inputs (fun h => join n h (n_inputs t) (n_inputs x)) s
  | KScalar => Done s
  end).
Fixpoint merge_node (n : nat) (t : tnode) (xs : list tnode) (s : store) : out store :=
  match xs with [] => Done s | x :: xs => obind (merge_one n t x s) (merge_node n t xs) end.
(** schema_build.go:132-157 [mergeTypeExtensions]: the extended types with their extensions, in the order in which the map
    is visited.  SIMPLIFIED: every extended type is defined (an undefined one ends the loop, SchemaBuild.v [merge_types]). *)
Fixpoint merge_nodes (n : nat) (js : list (tnode * list tnode)) (s : store) : out store :=
  match js with [] => Done s | (t, xs) :: js => obind (merge_node n t xs s) (merge_nodes n js) end.
(** schema_build.go:119-129 [mergeSchemaExtensions]; [None]: no schema definition. *)
Fixpoint merge_snode (n : nat) (d : snode) (xs : list snode) (s : store) : out store :=
  match xs with
  | [] => Done s
  | x :: xs => obind (on_sdirs (fun h => join n h (n_sdirs d) (n_sdirs x)) s) (fun s => obind (on_ops (fun h => join n h (n_sops d) (n_sops x)) s) (merge_snode n d xs))
  end.
Definition merge_schemas (n : nat) (d : option (snode * list snode)) (s : store) : out store :=
  match d with None => Done s | Some (d, xs) => merge_snode n d xs s end.
(** schema_build.go:26-31, 101-113: the two merges, and the loop over the schema definition's operation types, which reads them. *)
Definition build_in_place (n : nat) (d : option (snode * list snode)) (js : list (tnode * list tnode)) (s : store) : out (store * list optype) :=
  obind (merge_schemas n d s) (fun s => obind (merge_nodes n js s) (fun s =>
  obind (match d with None => Done [] | Some (d, _) => forEach n (h_ops s) (n_sops d) end) (fun l => Done (s, map fst l)))).

(** ** The joins of one list: [p.Join(q)] for the [q] in [qs], in order; and of several lists. *)
Section Heap.
Context {A : Type}.
Fixpoint joins (n : nat) (h : @heap A) (p : ptr) (qs : list ptr) : out heap :=
  match qs with [] => Done h | q :: qs => obind (join n h p q) (fun h => joins n h p qs) end.
Fixpoint joinss (n : nat) (h : @heap A) (js : list (ptr * list ptr)) : out heap :=
  match js with [] => Done h | (p, qs) :: js => obind (joins n h p qs) (fun h => joinss n h js) end.
End Heap.
