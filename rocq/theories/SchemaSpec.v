(** * SchemaSpec: what a well-formed schema is (GraphQL June 2018, sections 3.3, 3.6, 3.7), for C36 and C40. *)
From Verif Require Import Base AST Context LexSpec.

(** [o] is an order in which a map can be visited: every entry once. *)
Definition visits_map {V} (o m : emap V) : Prop := NoDup (map fst o) /\ forall k v, In (k, v) o <-> mget k m = Some v.
Definition kind_of (s : schema) (n : bytes) : option tkindT := option_map t_kind (mget n (sc_types s)).
(** the type that a type reference names, inside its lists *)
Fixpoint innermost (t : ty) : option bytes := match t with TNamed n _ => Some n | TList t _ => innermost t | TListNil => None end.
(** the [NamedType] of a reference that is not a list *)
Definition name_of (t : ty) : bytes := match t with TNamed n _ => n | _ => [] end.
Definition whole (t : ty) : Prop := innermost t <> None.
Definition repeated {X} (x : X) (l : list X) : Prop := exists a b c, l = a ++ x :: b ++ x :: c.
Definition first_named (d : tydef) (n : bytes) (f : fielddef) : Prop :=
  exists a b, t_fields d = a ++ f :: b /\ fd_name f = n /\ Forall (fun g => fd_name g <> n) a.

(** ** Names *)
(** /^[_a-zA-Z][_a-zA-Z0-9]*$/ *)
Definition proper_name (n : bytes) : Prop := exists c r, n = c :: r /\ letter (zb c) /\ Forall (fun b => letter (zb b) \/ digit (zb b)) r.
Definition reserved (n : bytes) : Prop := exists r, n = B "__" ++ r.
Definition introspection_type (n : bytes) : Prop :=
  In n (map B ["__Schema"; "__Directive"; "__DirectiveLocation"; "__Type"; "__Field"; "__InputValue"; "__EnumValue"; "__TypeKind"]%string).
Definition name_error (n : bytes) (e : err) : Prop := reserved n /\ e = EReserved n \/ ~ reserved n /\ ~ proper_name n /\ e = EInvalidName n.

(** ** Covariance of types (3.6, "type validation" 4.1.1) *)
Inductive sub_named (s : schema) (n m : bytes) : Prop :=
| sn_same : n = m -> sub_named s n m
| sn_union u : mget m (sc_types s) = Some u -> t_kind u = KUnion -> kind_of s n = Some KObject -> In (TNamed n false) (t_members u) -> sub_named s n m
| sn_interface d : kind_of s m = Some KInterface -> mget n (sc_types s) = Some d -> t_kind d = KObject -> In m (map name_of (t_impl d)) -> sub_named s n m.
(** [nn] is the nullability of the implementing type, [mm] that of the interface. *)
Definition null_ok (nn mm : bool) : Prop := mm = true -> nn = true.
Inductive covariant (s : schema) : ty -> ty -> Prop :=
| co_named n nn m mm : sub_named s n m -> null_ok nn mm -> covariant s (TNamed n nn) (TNamed m mm)
| co_list a nn b mm : covariant s a b -> null_ok nn mm -> covariant s (TList a nn) (TList b mm).
(** The pairs on which the code does not return: an object type in the place of an interface or union that it does not belong to. *)
Inductive undecided (s : schema) : ty -> ty -> Prop :=
| un_named n nn m mm : kind_of s n = Some KObject -> kind_of s m = Some KInterface \/ kind_of s m = Some KUnion -> ~ sub_named s n m -> null_ok nn mm ->
    undecided s (TNamed n nn) (TNamed m mm)
| un_list a nn b mm : undecided s a b -> null_ok nn mm -> undecided s (TList a nn) (TList b mm).

(** ** Well-formed schemas *)
Definition type_in (s : schema) (k : tkindT) (d : tydef) : Prop := exists n, mget n (sc_types s) = Some d /\ t_kind d = k.
Definition with_fields_in (s : schema) (d : tydef) : Prop := type_in s KObject d \/ type_in s KInterface d.
Definition kind_among (s : schema) (ks : list tkindT) (t : ty) : Prop := exists n k, innermost t = Some n /\ kind_of s n = Some k /\ In k ks.
Definition output_kinds := [KScalar; KObject; KInterface; KUnion; KEnum].
Definition input_kinds := [KScalar; KEnum; KInputObject].
Definition root (s : schema) (o : option ty) (d : tydef) : Prop := exists t, o = Some t /\ mget (name_of t) (sc_types s) = Some d.
Inductive checked_name (s : schema) : bytes -> Prop :=
| cn_directive n d : mget n (sc_dirs s) = Some d -> checked_name s n
| cn_directive_arg n d a : mget n (sc_dirs s) = Some d -> In a (dd_args d) -> checked_name s (i_name a)
| cn_type n d : mget n (sc_types s) = Some d -> ~ introspection_type n -> checked_name s n
| cn_field d f : with_fields_in s d -> In f (t_fields d) -> checked_name s (fd_name f)
| cn_field_arg d f a : with_fields_in s d -> In f (t_fields d) -> In a (fd_args f) -> checked_name s (i_name a).
(** [d] implements the interface [i], which has the field [f]. *)
Definition must_provide (s : schema) (d i : tydef) (f : fielddef) : Prop :=
  type_in s KObject d /\ (exists t, In t (t_impl d) /\ mget (name_of t) (sc_types s) = Some i) /\ t_kind i = KInterface /\ In f (t_fields i).
Inductive violation (s : schema) : err -> Prop :=
| vi_name n e : checked_name s n -> name_error n e -> violation s e
| vi_query_missing : (forall d, ~ root s (sc_query s) d) -> violation s (EMsg (B "Query root type must be provided."))
| vi_query d : root s (sc_query s) d -> t_kind d <> KObject -> violation s (EMsg (B "Query root type must be Object type."))
| vi_mutation d : root s (sc_mutation s) d -> t_kind d <> KObject -> violation s (EMsg (B "Mutation root type must be Object type if provided."))
| vi_subscription d : root s (sc_subscription s) d -> t_kind d <> KObject -> violation s (EMsg (B "Subscription root type must be Object type if provided."))
| vi_directive_arg n d a : mget n (sc_dirs s) = Some d -> repeated a (map i_name (dd_args d)) ->
    violation s (EMsg (B "Argument @" ++ n ++ B "(" ++ a ++ B ":) can only be defined once."))
| vi_no_fields d : with_fields_in s d -> t_fields d = [] -> violation s (EMsg (B "Type " ++ t_name d ++ B " must define one or more fields."))
| vi_output d f : with_fields_in s d -> In f (t_fields d) -> ~ kind_among s output_kinds (fd_type f) ->
    violation s (EMsg (B "The type of " ++ t_name d ++ B "." ++ fd_name f ++ B " must be Output Type."))
| vi_field_arg d f a : with_fields_in s d -> In f (t_fields d) -> repeated a (map i_name (fd_args f)) ->
    violation s (EMsg (B "Field argument " ++ t_name d ++ B "." ++ fd_name f ++ B "(" ++ a ++ B ":) can only be defined once."))
| vi_input d f a : with_fields_in s d -> In f (t_fields d) -> In a (fd_args f) -> ~ kind_among s input_kinds (i_type a) ->
    violation s (EMsg (B "The type of " ++ t_name d ++ B "." ++ fd_name f ++ B "(" ++ i_name a ++ B ":) must be Input Type."))
| vi_not_interface d t : type_in s KObject d -> In t (t_impl d) -> kind_of s (name_of t) <> Some KInterface ->
    violation s (EMsg (B "Type " ++ t_name d ++ B " must only implement Interface types, it cannot implement " ++ name_of t))
| vi_interface_twice d n : type_in s KObject d -> kind_of s n = Some KInterface -> repeated n (map name_of (t_impl d)) ->
    violation s (EMsg (B "Type " ++ t_name d ++ B " can only implement " ++ n ++ B " once."))
| vi_field_missing d i f : must_provide s d i f -> (forall g, In g (t_fields d) -> fd_name g <> fd_name f) ->
    violation s (EMsg (B "Interface field " ++ t_name i ++ B "." ++ fd_name f ++ B " expected but " ++ t_name d ++ B " does not provide it."))
| vi_field_type d i f g : must_provide s d i f -> first_named d (fd_name f) g -> ~ covariant s (fd_type g) (fd_type f) ->
    violation s (EMsg (B "Interface field " ++ t_name i ++ B "." ++ fd_name f ++ B " expects type " ++ ty_string (fd_type f) ++ B " but " ++
                       t_name d ++ B "." ++ fd_name g ++ B " is type " ++ ty_string (fd_type g))).
(** Every type reference that validation looks at has its element type (the parser makes others, of [[] followed by an error). *)
Definition whole_types (s : schema) : Prop := forall d f, with_fields_in s d -> In f (t_fields d) -> whole (fd_type f) /\ forall a, In a (fd_args f) -> whole (i_type a).
(** Some object's field stands for an interface's field at an undecided type. *)
Definition has_undecided (s : schema) : Prop := exists d i f g, must_provide s d i f /\ first_named d (fd_name f) g /\ undecided s (fd_type g) (fd_type f).
