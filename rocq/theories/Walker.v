(** * Walker: model of validation/walker.go (generated by lab/walkergen).

    A node handed to an event handler is a [node]; its constructor tells the node type.  Executable definitions (and
    definitions) carry their position in the document, which stands for Go's pointer identity: the rules compare pointers
    to executable definitions (context.go:76,80,260).  A [Walker] is a record of enter/leave slices per node type: a
    function from (phase, node type) to the list of registered handlers.  SIMPLIFIED: [Path]/[PathNode(s)]/[Location(s)]
    (walker.go:1391-1440,1687-1760,2256-2340,2716-2740): [Selection.Path] is nil in every parsed document and nothing
    refers to [Locations]. *)
From Verif Require Import Base AST.

Inductive phase := Enter | Leave.

Inductive node :=
| NDocument (d : document)
| NDefinitions (ds : list definition)
| NDefinition (i : nat) (d : definition)
| NExecutable (i : nat) (b : body)
| NTypeSystem (b : body)
| NTypeSystemExt (b : body)
| NOperation (o : opdef)
| NOperationKind (k : opkind) (o : opdef)          (* Query/Mutation/SubscriptionOperationDefinition *)
| NFragment (f : fragdef)
| NTypeCondition (t : ty)
| NVariableDefinitions (vs : list vardef)
| NVariableDefinition (v : vardef)
| NSelections (ss : list selection)
| NSelection (s : selection)
| NFieldSelection (s : selection)
| NFragmentSpread (s : selection)
| NInlineFragment (s : selection)
| NArguments (l : list argument)
| NArgument (a : argument)
| NDirectives (l : list directive)
| NDirective (d : directive)
| NValue (v : value)
| NBooleanValue (v : value) | NEnumValue (v : value) | NFloatValue (v : value) | NIntValue (v : value)
| NListValue (v : value) | NNullValue (v : value) | NObjectValue (v : value) | NStringValue (v : value)
| NVariableValue (v : value)
| NObjectField (f : bytes * value)
| NTypes (l : list ty)
| NType (t : ty)
| NListType (t : ty)
| NNamedType (t : ty)
| NDirectiveDefinition (d : dirdef)
| NSchemaDefinition (s : schemadef)
| NSchemaExtension (s : schemadef)
| NOperationTypeDefinitions (l : list optype)
| NOperationTypeDefinition (o : optype)
| NTypeDefinition (t : tydef)
| NTypeDefinitionKind (k : tkindT) (t : tydef)     (* Enum/InputObject/Interface/Object/Scalar/UnionTypeDefinition *)
| NTypeExtension (t : tydef)
| NTypeExtensionKind (k : tkindT) (t : tydef)
| NFieldDefinitions (l : list fielddef)
| NFieldDefinition (f : fielddef)
| NInputValueDefinitions (l : list ivdef)
| NInputValueDefinition (i : ivdef)
| NEnumValueDefinitions (l : list enumval)
| NEnumValueDefinition (e : enumval).

(** The node types: walker.go:8-78, the fields of [Walker]. *)
Inductive ntype :=
| TDocument | TDefinitions | TDefinition | TExecutable | TTypeSystem | TTypeSystemExt | TOperation
| TOperationKind (k : opkind) | TFragment | TTypeCondition | TVariableDefinitions | TVariableDefinition | TSelections
| TSelection | TFieldSelection | TFragmentSpread | TInlineFragment | TArguments | TArgument | TDirectives | TDirective
| TValue | TBooleanValue | TEnumValue | TFloatValue | TIntValue | TListValue | TNullValue | TObjectValue | TStringValue
| TVariableValue | TObjectField | TTypes | TType | TListType | TNamedType | TDirectiveDefinition | TSchemaDefinition
| TSchemaExtension | TOperationTypeDefinitions | TOperationTypeDefinition | TTypeDefinition
| TTypeDefinitionKind (k : tkindT) | TTypeExtension | TTypeExtensionKind (k : tkindT) | TFieldDefinitions
| TFieldDefinition | TInputValueDefinitions | TInputValueDefinition | TEnumValueDefinitions | TEnumValueDefinition.
Definition ntype_of (n : node) : ntype :=
  match n with
  | NDocument _ => TDocument | NDefinitions _ => TDefinitions | NDefinition _ _ => TDefinition | NExecutable _ _ => TExecutable
  | NTypeSystem _ => TTypeSystem | NTypeSystemExt _ => TTypeSystemExt | NOperation _ => TOperation
  | NOperationKind k _ => TOperationKind k | NFragment _ => TFragment | NTypeCondition _ => TTypeCondition
  | NVariableDefinitions _ => TVariableDefinitions | NVariableDefinition _ => TVariableDefinition
  | NSelections _ => TSelections | NSelection _ => TSelection | NFieldSelection _ => TFieldSelection
  | NFragmentSpread _ => TFragmentSpread | NInlineFragment _ => TInlineFragment | NArguments _ => TArguments
  | NArgument _ => TArgument | NDirectives _ => TDirectives | NDirective _ => TDirective | NValue _ => TValue
  | NBooleanValue _ => TBooleanValue | NEnumValue _ => TEnumValue | NFloatValue _ => TFloatValue | NIntValue _ => TIntValue
  | NListValue _ => TListValue | NNullValue _ => TNullValue | NObjectValue _ => TObjectValue
  | NStringValue _ => TStringValue | NVariableValue _ => TVariableValue | NObjectField _ => TObjectField
  | NTypes _ => TTypes | NType _ => TType | NListType _ => TListType | NNamedType _ => TNamedType
  | NDirectiveDefinition _ => TDirectiveDefinition | NSchemaDefinition _ => TSchemaDefinition
  | NSchemaExtension _ => TSchemaExtension | NOperationTypeDefinitions _ => TOperationTypeDefinitions
  | NOperationTypeDefinition _ => TOperationTypeDefinition | NTypeDefinition _ => TTypeDefinition
  | NTypeDefinitionKind k _ => TTypeDefinitionKind k | NTypeExtension _ => TTypeExtension
  | NTypeExtensionKind k _ => TTypeExtensionKind k | NFieldDefinitions _ => TFieldDefinitions
  | NFieldDefinition _ => TFieldDefinition | NInputValueDefinitions _ => TInputValueDefinitions
  | NInputValueDefinition _ => TInputValueDefinition | NEnumValueDefinitions _ => TEnumValueDefinitions
  | NEnumValueDefinition _ => TEnumValueDefinition
  end.
Definition ntype_eq_dec (a b : ntype) : {a = b} + {a <> b}.
Proof. repeat decide equality. Defined.
Definition phase_eq_dec (a b : phase) : {a = b} + {a <> b}.
Proof. decide equality. Defined.

Section Walk.
Context {C : Type}.

(** walker.go:96,98-102: handlers take the context (mutated in place: here returned) and the node. *)
Definition handler := C -> node -> C.
(** walker.go:8-78 [Walker]. *)
Definition walker := phase -> ntype -> list handler.
Definition empty_walker : walker := fun _ _ => [].
(** walker.go:105-112 [AddXEnterEventHandler]/[AddXLeaveEventHandler]. *)
Definition add_handler (ph : phase) (t : ntype) (h : handler) (w : walker) : walker :=
  fun ph' t' => if phase_eq_dec ph ph' then if ntype_eq_dec t t' then w ph' t' ++ [h] else w ph' t' else w ph' t'.
(** walker.go:79-88 [NewWalker]: the visit functions register their handlers, in order. *)
Definition new_walker (fs : list (walker -> walker)) : walker := fold_left (fun w f => f w) fs empty_walker.

Variable w : walker.
(** walker.go:115-126 [OnXEnter], [OnXLeave]. *)
Definition on (ph : phase) (n : node) (c : C) : C := fold_left (fun c h => h c n) (w ph (ntype_of n)) c.
(** The shape of every [walkX]: enter, children, leave. *)
Definition around (n : node) (body : C -> C) (c : C) : C := on Leave n (body (on Enter n c)).
(** [l.ForEach(func(x, i) { walkX(ctx, x) })]. *)
Definition each {X} (f : X -> C -> C) (l : list X) (c : C) : C := fold_left (fun c x => f x c) l c.
(** [if l != nil { walkXs(ctx, l) }]. *)
Definition if_nonnil {X} (l : list X) (f : list X -> C -> C) (c : C) : C := match l with [] => c | _ => f l c end.
Definition if_some {X} (o : option X) (f : X -> C -> C) (c : C) : C := match o with None => c | Some x => f x c end.

(** walker.go:3329-3365 [walkValue] with 215-218, 652-655, 976-979, 1445-1448, 1657-1665 (list), 1881-1884, 1921-1927
    (object field), 2091-2099 (object), 2770-2773, 3479-3482. *)
Fixpoint walkValue (v : value) (c : C) : C :=
  around (NValue v)
    match v with
    | VBool _ => around (NBooleanValue v) (fun c => c)
    | VEnum _ => around (NEnumValue v) (fun c => c)
    | VFloat _ => around (NFloatValue v) (fun c => c)
    | VInt _ => around (NIntValue v) (fun c => c)
    | VList l => around (NListValue v) (fun c => fold_left (fun c x => walkValue x c) l c)
    | VNull => around (NNullValue v) (fun c => c)
    | VObject fs => around (NObjectValue v)
        (fun c => fold_left (fun c f => around (NObjectField f) (walkValue (snd f)) c) fs c)
    | VString _ => around (NStringValue v) (fun c => c)
    | VVar _ => around (NVariableValue v) (fun c => c)
    end c.
(** walker.go:129-135. *)
Definition walkArgument (a : argument) : C -> C := around (NArgument a) (walkValue (arg_value a)).
(** walker.go:171-179. *)
Definition walkArguments (l : list argument) : C -> C := around (NArguments l) (each walkArgument l).
(** walker.go:348-356. *)
Definition walkDirective (d : directive) : C -> C := around (NDirective d) (if_nonnil (d_args d) walkArguments).
(** walker.go:436-444. *)
Definition walkDirectives (l : list directive) : C -> C := around (NDirectives l) (each walkDirective l).
(** walker.go:2862-2873 [walkType] with 1613-1621 (list type) and 1837-1845 (named type: its [ListType] is nil). *)
Fixpoint walkType (t : ty) (c : C) : C :=
  around (NType t)
    match t with
    | TNamed _ _ => around (NNamedType t) (fun c => c)
    | TList t' _ => around (NListType t) (walkType t')
    | TListNil => around (NListType t) (fun c => c)
    end c.
(** walker.go:3157-3165. *)
Definition walkTypes (l : list ty) : C -> C := around (NTypes l) (each walkType l).
(** walker.go:2909-2915. *)
Definition walkTypeCondition (t : ty) : C -> C := around (NTypeCondition t) (walkType t).
(** walker.go:3390-3400. *)
Definition walkVariableDefinition (v : vardef) : C -> C :=
  around (NVariableDefinition v) (fun c => if_some (v_default v) walkValue (walkType (v_type v) c)).
(** walker.go:3435-3443. *)
Definition walkVariableDefinitions (l : list vardef) : C -> C :=
  around (NVariableDefinitions l) (each walkVariableDefinition l).
(** walker.go:2637-2650 [walkSelection] with 920-940 (field), 1068-1088 (spread: only the directives can be non-nil),
    1124-1148 (inline fragment: no arguments), 2686-2694 [walkSelections]. *)
Fixpoint walkSelection (s : selection) (c : C) : C :=
  around (NSelection s)
    match s with
    | SField _ _ args dirs sels => around (NFieldSelection s) (fun c =>
        if_nonnil sels (fun l => around (NSelections l) (fun c => fold_left (fun c x => walkSelection x c) sels c))
          (if_nonnil dirs walkDirectives (if_nonnil args walkArguments c)))
    | SSpread _ dirs => around (NFragmentSpread s) (if_nonnil dirs walkDirectives)
    | SInline cond dirs sels => around (NInlineFragment s) (fun c =>
        if_nonnil sels (fun l => around (NSelections l) (fun c => fold_left (fun c x => walkSelection x c) sels c))
          (if_nonnil dirs walkDirectives (if_some cond walkTypeCondition c)))
    end c.
Definition walkSelections (l : list selection) : C -> C := around (NSelections l) (each walkSelection l).
(** walker.go:2135-2148 with 1785-1801, 2361-2377, 2810-2826. *)
Definition walkOperationDefinition (o : opdef) : C -> C :=
  around (NOperation o) (around (NOperationKind (o_kind o) o) (fun c =>
    if_nonnil (o_sels o) walkSelections (if_nonnil (o_dirs o) walkDirectives
      (if_nonnil (o_vars o) walkVariableDefinitions c)))).
(** walker.go:1016-1032 (the type condition of a parsed fragment definition is not nil). *)
Definition walkFragmentDefinition (f : fragdef) : C -> C :=
  around (NFragment f) (fun c =>
    if_nonnil (f_sels f) walkSelections (if_nonnil (f_dirs f) walkDirectives (walkTypeCondition (f_cond f) c))).
(** walker.go:1312-1324. *)
Definition walkInputValueDefinition (i : ivdef) : C -> C :=
  around (NInputValueDefinition i) (fun c =>
    if_some (i_default i) walkValue (if_nonnil (i_dirs i) walkDirectives (walkType (i_type i) c))).
(** walker.go:1361-1369. *)
Definition walkInputValueDefinitions (l : list ivdef) : C -> C :=
  around (NInputValueDefinitions l) (each walkInputValueDefinition l).
(** walker.go:827-839. *)
Definition walkFieldDefinition (f : fielddef) : C -> C :=
  around (NFieldDefinition f) (fun c =>
    if_nonnil (fd_dirs f) walkDirectives (walkType (fd_type f) (if_nonnil (fd_args f) walkInputValueDefinitions c))).
(** walker.go:876-884. *)
Definition walkFieldDefinitions (l : list fielddef) : C -> C := around (NFieldDefinitions l) (each walkFieldDefinition l).
(** walker.go:692-700. *)
Definition walkEnumValueDefinition (e : enumval) : C -> C :=
  around (NEnumValueDefinition e) (if_nonnil (ev_dirs e) walkDirectives).
(** walker.go:736-744. *)
Definition walkEnumValueDefinitions (l : list enumval) : C -> C :=
  around (NEnumValueDefinitions l) (each walkEnumValueDefinition l).
(** walker.go:2951-2970 with the six identical [walkXTypeDefinition]: 524-550, 1184-1210, 1485-1511, 1963-1989,
    2413-2439, 3201-3227. *)
Definition walkTypeDefinition (t : tydef) : C -> C :=
  around (NTypeDefinition t) (around (NTypeDefinitionKind (t_kind t) t) (fun c =>
    if_nonnil (t_inputs t) walkInputValueDefinitions (if_nonnil (t_values t) walkEnumValueDefinitions
      (if_nonnil (t_members t) walkTypes (if_nonnil (t_fields t) walkFieldDefinitions
        (if_nonnil (t_dirs t) walkDirectives (if_nonnil (t_impl t) walkTypes c))))))).
(** walker.go:3006-3025 with 588-614, 1248-1274, 1549-1575, 2027-2053, 2477-2503, 3265-3291 (directives first). *)
Definition walkTypeExtension (t : tydef) : C -> C :=
  around (NTypeExtension t) (around (NTypeExtensionKind (t_kind t) t) (fun c =>
    if_nonnil (t_inputs t) walkInputValueDefinitions (if_nonnil (t_values t) walkEnumValueDefinitions
      (if_nonnil (t_members t) walkTypes (if_nonnil (t_fields t) walkFieldDefinitions
        (if_nonnil (t_impl t) walkTypes (if_nonnil (t_dirs t) walkDirectives c))))))).
(** walker.go:392-400. *)
Definition walkDirectiveDefinition (d : dirdef) : C -> C :=
  around (NDirectiveDefinition d) (if_nonnil (dd_args d) walkInputValueDefinitions).
(** walker.go:2184-2190. *)
Definition walkOperationTypeDefinition (o : optype) : C -> C := around (NOperationTypeDefinition o) (walkType (ot_type o)).
(** walker.go:2226-2234. *)
Definition walkOperationTypeDefinitions (l : list optype) : C -> C :=
  around (NOperationTypeDefinitions l) (each walkOperationTypeDefinition l).
(** walker.go:2541-2553. *)
Definition walkSchemaDefinition (s : schemadef) : C -> C :=
  around (NSchemaDefinition s) (fun c =>
    if_nonnil (s_ops s) walkOperationTypeDefinitions (if_nonnil (s_dirs s) walkDirectives c)).
(** walker.go:2589-2601. *)
Definition walkSchemaExtension (s : schemadef) : C -> C :=
  around (NSchemaExtension s) (fun c =>
    if_nonnil (s_ops s) walkOperationTypeDefinitions (if_nonnil (s_dirs s) walkDirectives c)).
(** walker.go:255-268 [walkDefinition] with 780-791, 3061-3074, 3110-3121. *)
Definition walkDefinition (i : nat) (d : definition) : C -> C :=
  around (NDefinition i d)
    match def_body d with
    | DOp o => around (NExecutable i (def_body d)) (walkOperationDefinition o)
    | DFrag f => around (NExecutable i (def_body d)) (walkFragmentDefinition f)
    | DSchema s => around (NTypeSystem (def_body d)) (walkSchemaDefinition s)
    | DType t => around (NTypeSystem (def_body d)) (walkTypeDefinition t)
    | DDir x => around (NTypeSystem (def_body d)) (walkDirectiveDefinition x)
    | XSchema s => around (NTypeSystemExt (def_body d)) (walkSchemaExtension s)
    | XType t => around (NTypeSystemExt (def_body d)) (walkTypeExtension t)
    end.
(** walker.go:304-312; the callback's index is the position of the definition. *)
Definition numbered (l : list definition) : list (nat * definition) := combine (seq 0 (List.length l)) l.
Definition walkDefinitions (l : list definition) : C -> C :=
  around (NDefinitions l) (each (fun p => walkDefinition (fst p) (snd p)) (numbered l)).
(** walker.go:91-93,480-488 [Walk]. *)
Definition walk (d : document) : C -> C := around (NDocument d) (if_nonnil (doc_defs d) walkDefinitions).
End Walk.
Arguments handler : clear implicits.
Arguments walker : clear implicits.
