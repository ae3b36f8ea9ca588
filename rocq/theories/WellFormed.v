(** * WellFormed: what documents contain that come from a text (the specification for C55).

    Independent of the parser and the grammar: a predicate on syntax trees, over what a name may be. *)
From Verif Require Import Base AST.

Section WellFormed.
(** [ident n]: [n] is a name.  [float lit]: [lit] is a float in range. *)
Variable ident : bytes -> Prop.
Variable float : bytes -> Prop.

(** A name used for an enum value. *)
Definition enum_ident (n : bytes) : Prop := ident n /\ ~ In n [B "true"; B "false"; B "null"].
(** A name used for a fragment. *)
Definition fragment_ident (n : bytes) : Prop := ident n /\ n <> B "on".
Definition optional_ident (n : bytes) : Prop := n = [] \/ ident n.

Fixpoint wf_type (t : ty) : Prop := match t with TNamed n _ => ident n | TList t _ => wf_type t | TListNil => True end.
Definition wf_named (t : ty) : Prop := exists n nn, t = TNamed n nn /\ ident n.

Inductive wf_value : value -> Prop :=
| wv_var n : ident n -> wf_value (VVar n)
| wv_int z : (- 2 ^ 63 <= z < 2 ^ 63)%Z -> wf_value (VInt z)
| wv_float l : float l -> wf_value (VFloat l)
| wv_string s : wf_value (VString s)
| wv_bool b : wf_value (VBool b)
| wv_null : wf_value VNull
| wv_enum n : enum_ident n -> wf_value (VEnum n)
| wv_list l : Forall wf_value l -> wf_value (VList l)
| wv_object fs : Forall (fun f => ident (fst f) /\ wf_value (snd f)) fs -> wf_value (VObject fs).
Definition wf_default (v : option value) : Prop := forall x, v = Some x -> wf_value x.

Definition wf_arguments (l : list argument) : Prop := Forall (fun a => ident (arg_name a) /\ wf_value (arg_value a)) l.
(** The directives at a place: each records that place as its location. *)
Definition wf_directives (place : dirloc) (l : list directive) : Prop :=
  Forall (fun d => ident (d_name d) /\ wf_arguments (d_args d) /\ d_loc d = place) l.

Inductive wf_selection : selection -> Prop :=
| ws_field al n args ds ss :
    optional_ident al -> ident n -> wf_arguments args -> wf_directives LField ds -> Forall wf_selection ss -> wf_selection (SField al n args ds ss)
| ws_spread n ds : fragment_ident n -> wf_directives LFragmentSpread ds -> wf_selection (SSpread n ds)
| ws_inline c ds ss :
    (forall t, c = Some t -> wf_named t) -> wf_directives LInlineFragment ds -> ss <> [] -> Forall wf_selection ss -> wf_selection (SInline c ds ss).

Definition wf_variable (v : vardef) : Prop := ident (v_name v) /\ wf_type (v_type v) /\ wf_default (v_default v).
Definition place_of (k : opkind) : dirloc := match k with Query => LQuery | Mutation => LMutation | Subscription => LSubscription end.
Definition wf_operation (o : opdef) : Prop :=
  optional_ident (o_name o) /\ Forall wf_variable (o_vars o) /\ wf_directives (place_of (o_kind o)) (o_dirs o) /\
  o_sels o <> [] /\ Forall wf_selection (o_sels o).
Definition wf_fragment (f : fragdef) : Prop :=
  fragment_ident (f_name f) /\ wf_named (f_cond f) /\ wf_directives LFragmentDefinition (f_dirs f) /\
  f_sels f <> [] /\ Forall wf_selection (f_sels f).

Definition wf_input (place : dirloc) (i : ivdef) : Prop :=
  ident (i_name i) /\ wf_type (i_type i) /\ wf_default (i_default i) /\ wf_directives place (i_dirs i).
Definition wf_field (f : fielddef) : Prop :=
  ident (fd_name f) /\ Forall (wf_input LArgumentDefinition) (fd_args f) /\ wf_type (fd_type f) /\ wf_directives LFieldDefinition (fd_dirs f).
Definition wf_enum (v : enumval) : Prop := enum_ident (ev_name v) /\ wf_directives LEnumValue (ev_dirs v).
Definition place_of_type (k : tkindT) : dirloc :=
  match k with
  | KScalar => LScalar | KObject => LObject | KInterface => LInterface | KUnion => LUnion | KEnum => LEnum | KInputObject => LInputObject
  end.
Definition wf_typedef (t : tydef) : Prop :=
  ident (t_name t) /\ wf_directives (place_of_type (t_kind t)) (t_dirs t) /\
  Forall wf_type (t_impl t) /\ Forall wf_field (t_fields t) /\ Forall wf_type (t_members t) /\ Forall wf_enum (t_values t) /\
  Forall (wf_input LInputFieldDefinition) (t_inputs t) /\
  (* each part only where the kind of the type has it *)
  (t_impl t <> [] -> t_kind t = KObject) /\ (t_fields t <> [] -> t_kind t = KObject \/ t_kind t = KInterface) /\
  (t_members t <> [] -> t_kind t = KUnion) /\ (t_values t <> [] -> t_kind t = KEnum) /\ (t_inputs t <> [] -> t_kind t = KInputObject).
Definition wf_schema (s : schemadef) : Prop := wf_directives LSchema (s_dirs s) /\ Forall (fun o => wf_named (ot_type o)) (s_ops s).
(** A directive definition names at least one of the nineteen locations, and nothing else. *)
Definition wf_dirdef (d : dirdef) : Prop :=
  ident (dd_name d) /\ Forall (wf_input LArgumentDefinition) (dd_args d) /\ (0 < dd_locs d < 2 ^ 19)%N.

Definition wf_body (b : body) : Prop :=
  match b with
  | DOp o => wf_operation o
  | DFrag f => wf_fragment f
  | DSchema s => wf_schema s /\ s_ops s <> []
  | XSchema s => wf_schema s /\ (s_dirs s <> [] \/ s_ops s <> [])
  | DType t => wf_typedef t
  | XType t => wf_typedef t /\ t_desc t = []
  | DDir d => wf_dirdef d
  end.
Definition wf_document (d : document) : Prop := doc_defs d <> [] /\ Forall (fun x => wf_body (def_body x)) (doc_defs d).
End WellFormed.
