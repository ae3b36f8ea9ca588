(** * AST: model of ast/ast.go (the data types).

    Go's linked lists ([*Directives], [*Selections], ...) are Coq lists, the nil pointer being [[]]; LinkedList.v
    justifies this.  Go's tagged unions ([Kind] field plus the pointers used by that kind) are inductive types: the
    fields a kind does not use are Go zero values and are omitted.  [Path] (ast.go:200) is never set by the code. *)
From Verif Require Import Base.

(** ast.go:653-673 — directive locations: bit flags [1 << iota], in this order. *)
Definition dirloc := N.
Definition location_names : list bytes :=
  map B ["QUERY"; "MUTATION"; "SUBSCRIPTION"; "FIELD"; "FRAGMENT_DEFINITION"; "FRAGMENT_SPREAD"; "INLINE_FRAGMENT";
         "VARIABLE_DEFINITION"; "SCHEMA"; "SCALAR"; "OBJECT"; "FIELD_DEFINITION"; "ARGUMENT_DEFINITION"; "INTERFACE";
         "UNION"; "ENUM"; "ENUM_VALUE"; "INPUT_OBJECT"; "INPUT_FIELD_DEFINITION"]%string.
Definition LQuery : dirloc := 1%N.               Definition LMutation : dirloc := 2%N.
Definition LSubscription : dirloc := 4%N.        Definition LField : dirloc := 8%N.
Definition LFragmentDefinition : dirloc := 16%N. Definition LFragmentSpread : dirloc := 32%N.
Definition LInlineFragment : dirloc := 64%N.     Definition LVariableDefinition : dirloc := 128%N.
Definition LSchema : dirloc := 256%N.            Definition LScalar : dirloc := 512%N.
Definition LObject : dirloc := 1024%N.           Definition LFieldDefinition : dirloc := 2048%N.
Definition LArgumentDefinition : dirloc := 4096%N. Definition LInterface : dirloc := 8192%N.
Definition LUnion : dirloc := 16384%N.           Definition LEnum : dirloc := 32768%N.
Definition LEnumValue : dirloc := 65536%N.       Definition LInputObject : dirloc := 131072%N.
Definition LInputFieldDefinition : dirloc := 262144%N.

(** ast.go:609-629 [DirectiveLocationsByName] (a missing key reads as 0). *)
Fixpoint index_of (x : bytes) (l : list bytes) : option nat :=
  match l with
  | [] => None
  | y :: l' => if beqb x y then Some 0 else option_map S (index_of x l')
  end.
Definition location_by_name (n : bytes) : dirloc :=
  match index_of n location_names with Some i => N.shiftl 1 (N.of_nat i) | None => 0%N end.

(** ast.go:631-651 [NamesByDirectiveLocations] (a missing key reads as the empty string). *)
Definition location_name (l : dirloc) : bytes :=
  match find (fun p => N.eqb l (location_by_name p)) location_names with Some n => n | None => [] end.

(** ast.go:299-317 [Type].  [TListNil] is a list type whose [ListType] pointer is nil (parser.go:706-711). *)
Inductive ty :=
| TNamed (n : bytes) (nn : bool)
| TList (t : ty) (nn : bool)
| TListNil.

(** ast.go:219-280 [Value].  SIMPLIFIED: a float is kept as its literal rather than as the float64 that
    [strconv.ParseFloat] makes of it. *)
Inductive value :=
| VVar (n : bytes)
| VInt (z : Z)
| VFloat (lit : bytes)
| VString (s : bytes)
| VBool (b : bool)
| VNull
| VEnum (n : bytes)
| VList (l : list value)
| VObject (fs : list (bytes * value)).

(** ast.go:207-210 [Argument]. *)
Record argument := mkArg { arg_name : bytes; arg_value : value }.
(** ast.go:338-342 [Directive]. *)
Record directive := mkDir { d_name : bytes; d_args : list argument; d_loc : dirloc }.

(** ast.go:166-202 [Selection].  An absent alias is the empty string. *)
Inductive selection :=
| SField (alias name : bytes) (args : list argument) (dirs : list directive) (sels : list selection)
| SSpread (name : bytes) (dirs : list directive)
| SInline (cond : option ty) (dirs : list directive) (sels : list selection).

(** ast.go:284-288 [VariableDefinition]. *)
Record vardef := mkVar { v_name : bytes; v_type : ty; v_default : option value }.

(** ast.go:136-164 [OperationDefinition]. *)
Inductive opkind := Query | Mutation | Subscription.
Record opdef := mkOp { o_kind : opkind; o_name : bytes; o_vars : list vardef; o_dirs : list directive;
                       o_sels : list selection }.
(** ast.go:129-134 [FragmentDefinition]; [f_cond] is [TypeCondition.NamedType]. *)
Record fragdef := mkFrag { f_name : bytes; f_cond : ty; f_dirs : list directive; f_sels : list selection }.

(** ast.go:598-604 [InputValueDefinition]. *)
Record ivdef := mkIv { i_desc : bytes; i_name : bytes; i_type : ty; i_default : option value; i_dirs : list directive }.
(** ast.go:527-533 [FieldDefinition]. *)
Record fielddef := mkFd { fd_desc : bytes; fd_name : bytes; fd_args : list ivdef; fd_type : ty; fd_dirs : list directive }.
(** ast.go:535-539 [EnumValueDefinition]. *)
Record enumval := mkEv { ev_desc : bytes; ev_name : bytes; ev_dirs : list directive }.

(** ast.go:416-458 [TypeDefinition], ast.go:543-563 [TypeExtension] (the same fields but for [Description]). *)
Inductive tkindT := KScalar | KObject | KInterface | KUnion | KEnum | KInputObject.
Record tydef := mkTd { t_kind : tkindT; t_desc : bytes; t_name : bytes; t_impl : list ty; t_dirs : list directive;
                       t_fields : list fielddef; t_members : list ty; t_values : list enumval; t_inputs : list ivdef }.

(** ast.go:408-411 [OperationTypeDefinition]; ast.go:397-406 [SchemaDefinition], [SchemaExtension]. *)
Record optype := mkOt { ot_op : opkind; ot_type : ty }.
Record schemadef := mkSd { s_dirs : list directive; s_ops : list optype }.

(** ast.go:681-686 [DirectiveDefinition]. *)
Record dirdef := mkDd { dd_desc : bytes; dd_name : bytes; dd_args : list ivdef; dd_locs : dirloc }.

(** ast.go:55-117,347-392 — definitions: the nested [Kind]s flattened. *)
Inductive body :=
| DOp (o : opdef)
| DFrag (f : fragdef)
| DSchema (s : schemadef)
| DType (t : tydef)
| DDir (d : dirdef)
| XSchema (s : schemadef)
| XType (t : tydef).

(** ast.go:79-85 [Definition] with its location. *)
Record definition := mkDef { def_line : nat; def_col : Z; def_body : body }.

(** ast.go:44-53 [Document].  The int32 counters are unbounded here. *)
Record document := mkDoc { doc_defs : list definition; n_ops : nat; n_frags : nat; n_dirdefs : nat; n_schemas : nat;
                           n_types : nat; n_schemaexts : nat; n_typeexts : nat }.

(** ** Induction principles for the nested types. *)
Section value_ind.
  Variable P : value -> Prop.
  Hypothesis Hvar : forall n, P (VVar n).
  Hypothesis Hint : forall z, P (VInt z).
  Hypothesis Hfloat : forall l, P (VFloat l).
  Hypothesis Hstr : forall s, P (VString s).
  Hypothesis Hbool : forall b, P (VBool b).
  Hypothesis Hnull : P VNull.
  Hypothesis Henum : forall n, P (VEnum n).
  Hypothesis Hlist : forall l, Forall P l -> P (VList l).
  Hypothesis Hobj : forall fs, Forall (fun f => P (snd f)) fs -> P (VObject fs).
  Fixpoint value_nest (v : value) : P v :=
    match v with
    | VVar n => Hvar n | VInt z => Hint z | VFloat l => Hfloat l | VString s => Hstr s | VBool b => Hbool b
    | VNull => Hnull | VEnum n => Henum n
    | VList l => Hlist l ((fix go l := match l return Forall P l with
                                       | [] => Forall_nil _
                                       | x :: r => Forall_cons _ (value_nest x) (go r)
                                       end) l)
    | VObject fs => Hobj fs ((fix go l := match l return Forall (fun f => P (snd f)) l with
                                       | [] => Forall_nil _
                                       | x :: r => Forall_cons _ (value_nest (snd x)) (go r)
                                       end) fs)
    end.
End value_ind.

Section selection_ind.
  Variable P : selection -> Prop.
  Hypothesis Hf : forall al n args ds ss, Forall P ss -> P (SField al n args ds ss).
  Hypothesis Hs : forall n ds, P (SSpread n ds).
  Hypothesis Hi : forall c ds ss, Forall P ss -> P (SInline c ds ss).
  Fixpoint selection_nest (s : selection) : P s :=
    let go := (fix go l := match l return Forall P l with
                           | [] => Forall_nil _
                           | x :: r => Forall_cons _ (selection_nest x) (go r)
                           end) in
    match s with
    | SField al n args ds ss => Hf al n args ds ss (go ss)
    | SSpread n ds => Hs n ds
    | SInline c ds ss => Hi c ds ss (go ss)
    end.
End selection_ind.
