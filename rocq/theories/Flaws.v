(** * Flaws: what can be wrong with a schema, and what is said about it (the specification for C66). *)
From Verif Require Import Base AST Context SchemaSpec.

(** ** The flaws of a schema, in terms of the names of the types, fields, arguments and directives concerned *)
Inductive flaw :=
| FReserved (n : bytes)                     (* a name that begins with two underscores *)
| FInvalid (n : bytes)                      (* a name that is no name *)
| FNoQuery                                  (* there is no query root type *)
| FRoot (o : opkind)                        (* a root type that is not an object type *)
| FDirectiveArg (d a : bytes)               (* directive d has two arguments a *)
| FNoFields (t : bytes)                     (* type t has no fields *)
| FOutput (t f : bytes)                     (* the type of field t.f is not an output type *)
| FFieldArg (t f a : bytes)                 (* field t.f has two arguments a *)
| FInput (t f a : bytes)                    (* the type of argument a of t.f is not an input type *)
| FNotInterface (t i : bytes)               (* t implements i, which is not an interface *)
| FTwice (t i : bytes)                      (* t implements i twice *)
| FMissing (i f t : bytes)                  (* t implements i but lacks its field f *)
| FFieldType (i f : bytes) (want : ty) (t : bytes) (have : ty). (* t implements i, whose field f is of type want, but t.f is of type have, which will not do *)

Definition operation_root (s : schema) (o : opkind) : option ty := match o with Query => sc_query s | Mutation => sc_mutation s | Subscription => sc_subscription s end.
(** [d] is the type [n] of the schema and can have fields *)
Definition fielded (s : schema) (n : bytes) (d : tydef) : Prop := mget n (sc_types s) = Some d /\ (t_kind d = KObject \/ t_kind d = KInterface).
Definition object_type (s : schema) (n : bytes) (d : tydef) : Prop := mget n (sc_types s) = Some d /\ t_kind d = KObject.
(** the object type [t] implements the interface [i] that has the field [x] *)
Definition implements (s : schema) (t i : bytes) (d : tydef) (x : fielddef) : Prop :=
  object_type s t d /\ In i (map name_of (t_impl d)) /\ exists b, mget i (sc_types s) = Some b /\ t_kind b = KInterface /\ In x (t_fields b).
Definition has_flaw (s : schema) (x : flaw) : Prop :=
  match x with
  | FReserved n => checked_name s n /\ reserved n
  | FInvalid n => checked_name s n /\ ~ reserved n /\ ~ proper_name n
  | FNoQuery => forall t, operation_root s Query = Some t -> mget (name_of t) (sc_types s) = None
  | FRoot o => exists t k, operation_root s o = Some t /\ kind_of s (name_of t) = Some k /\ k <> KObject
  | FDirectiveArg n a => exists d, mget n (sc_dirs s) = Some d /\ repeated a (map i_name (dd_args d))
  | FNoFields t => exists d, fielded s t d /\ t_fields d = []
  | FOutput t f => exists d x, fielded s t d /\ In x (t_fields d) /\ fd_name x = f /\ ~ kind_among s output_kinds (fd_type x)
  | FFieldArg t f a => exists d x, fielded s t d /\ In x (t_fields d) /\ fd_name x = f /\ repeated a (map i_name (fd_args x))
  | FInput t f a => exists d x y, fielded s t d /\ In x (t_fields d) /\ fd_name x = f /\ In y (fd_args x) /\ i_name y = a /\ ~ kind_among s input_kinds (i_type y)
  | FNotInterface t i => exists d, object_type s t d /\ In i (map name_of (t_impl d)) /\ kind_of s i <> Some KInterface
  | FTwice t i => exists d, object_type s t d /\ repeated i (map name_of (t_impl d)) /\ kind_of s i = Some KInterface
  | FMissing i f t => exists d x, implements s t i d x /\ fd_name x = f /\ ~ In f (map fd_name (t_fields d))
  | FFieldType i f want t have => exists d x g, implements s t i d x /\ fd_name x = f /\ fd_type x = want /\ first_named d f g /\ fd_type g = have /\ ~ covariant s have want
  end.

(** ** The texts *)
Definition text_of (x : flaw) : bytes :=
  match x with
  | FReserved n => B "Name """ ++ n ++ B """ must not begin with ""__"" which is reserved by GraphQL introspection."
  | FInvalid n => B "Name must match /^[_a-zA-Z][_a-zA-Z0-9]*$/ but """ ++ n ++ B """ does not."
  | FNoQuery => B "Query root type must be provided."
  | FRoot Query => B "Query root type must be Object type."
  | FRoot Mutation => B "Mutation root type must be Object type if provided."
  | FRoot Subscription => B "Subscription root type must be Object type if provided."
  | FDirectiveArg d a => B "Argument @" ++ d ++ B "(" ++ a ++ B ":) can only be defined once."
  | FNoFields t => B "Type " ++ t ++ B " must define one or more fields."
  | FOutput t f => B "The type of " ++ t ++ B "." ++ f ++ B " must be Output Type."
  | FFieldArg t f a => B "Field argument " ++ t ++ B "." ++ f ++ B "(" ++ a ++ B ":) can only be defined once."
  | FInput t f a => B "The type of " ++ t ++ B "." ++ f ++ B "(" ++ a ++ B ":) must be Input Type."
  | FNotInterface t i => B "Type " ++ t ++ B " must only implement Interface types, it cannot implement " ++ i
  | FTwice t i => B "Type " ++ t ++ B " can only implement " ++ i ++ B " once."
  | FMissing i f t => B "Interface field " ++ i ++ B "." ++ f ++ B " expected but " ++ t ++ B " does not provide it."
  | FFieldType i f want t have => B "Interface field " ++ i ++ B "." ++ f ++ B " expects type " ++ ty_string want ++ B " but " ++ t ++ B "." ++ f ++ B " is type " ++ ty_string have
  end.

(** ** Schemas whose names have none of the punctuation of the texts, and whose types are known by their names *)
Definition punctuation : bytes := B " !""().:@[]".
Definition plain (n : bytes) : Prop := forall b, In b punctuation -> ~ In b n.
Fixpoint plain_type (t : ty) : Prop := match t with TNamed n _ => plain n | TList t _ => plain_type t | TListNil => True end.
Record plain_schema (s : schema) : Prop := {
  ps_key : forall n d, mget n (sc_types s) = Some d -> t_name d = n;
  ps_type : forall n d, mget n (sc_types s) = Some d -> plain n;
  ps_impl : forall n d t, mget n (sc_types s) = Some d -> In t (t_impl d) -> plain (name_of t);
  ps_field : forall n d f, mget n (sc_types s) = Some d -> In f (t_fields d) -> plain (fd_name f) /\ plain_type (fd_type f) /\ forall a, In a (fd_args f) -> plain (i_name a);
  ps_dir : forall n d, mget n (sc_dirs s) = Some d -> plain n /\ forall a, In a (dd_args d) -> plain (i_name a) }.
