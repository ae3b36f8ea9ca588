(** * WalkSpec: specification of a traversal, independent of the walker.

    [kids n]: the AST nodes directly below [n], in order (ast/ast.go's fields; nil lists are not nodes).  A traversal tree is
    a tree that unfolds [kids]; its events are the depth-first, left-to-right enter/leave sequence. *)
From Verif Require Import Base AST Walker.

Definition some {X} (f : X -> node) (o : option X) : list node := match o with None => [] | Some x => [f x] end.
Definition nonnil {X} (f : list X -> node) (l : list X) : list node := match l with [] => [] | _ => [f l] end.

Definition kids (n : node) : list node :=
  match n with
  | NDocument d => nonnil NDefinitions (doc_defs d)
  | NDefinitions ds => map (fun p => NDefinition (fst p) (snd p)) (combine (seq 0 (List.length ds)) ds)
  | NDefinition i d =>
      match def_body d with
      | DOp _ | DFrag _ => [NExecutable i (def_body d)]
      | DSchema _ | DType _ | DDir _ => [NTypeSystem (def_body d)]
      | XSchema _ | XType _ => [NTypeSystemExt (def_body d)]
      end
  | NExecutable _ b => match b with DOp o => [NOperation o] | DFrag f => [NFragment f] | _ => [] end
  | NTypeSystem b => match b with DSchema s => [NSchemaDefinition s] | DType t => [NTypeDefinition t]
                             | DDir d => [NDirectiveDefinition d] | _ => [] end
  | NTypeSystemExt b => match b with XSchema s => [NSchemaExtension s] | XType t => [NTypeExtension t] | _ => [] end
  | NOperation o => [NOperationKind (o_kind o) o]
  | NOperationKind _ o => nonnil NVariableDefinitions (o_vars o) ++ nonnil NDirectives (o_dirs o) ++ nonnil NSelections (o_sels o)
  | NFragment f => [NTypeCondition (f_cond f)] ++ nonnil NDirectives (f_dirs f) ++ nonnil NSelections (f_sels f)
  | NTypeCondition t => [NType t]
  | NVariableDefinitions l => map NVariableDefinition l
  | NVariableDefinition v => [NType (v_type v)] ++ some NValue (v_default v)
  | NSelections l => map NSelection l
  | NSelection s => match s with SField _ _ _ _ _ => [NFieldSelection s] | SSpread _ _ => [NFragmentSpread s]
                              | SInline _ _ _ => [NInlineFragment s] end
  | NFieldSelection s | NFragmentSpread s | NInlineFragment s =>
      match s with
      | SField _ _ args dirs sels => nonnil NArguments args ++ nonnil NDirectives dirs ++ nonnil NSelections sels
      | SSpread _ dirs => nonnil NDirectives dirs
      | SInline cond dirs sels => some NTypeCondition cond ++ nonnil NDirectives dirs ++ nonnil NSelections sels
      end
  | NArguments l => map NArgument l
  | NArgument a => [NValue (arg_value a)]
  | NDirectives l => map NDirective l
  | NDirective d => nonnil NArguments (d_args d)
  | NValue v =>
      match v with
      | VBool _ => [NBooleanValue v] | VEnum _ => [NEnumValue v] | VFloat _ => [NFloatValue v] | VInt _ => [NIntValue v]
      | VList _ => [NListValue v] | VNull => [NNullValue v] | VObject _ => [NObjectValue v] | VString _ => [NStringValue v]
      | VVar _ => [NVariableValue v]
      end
  | NListValue v => match v with VList l => map NValue l | _ => [] end
  | NObjectValue v => match v with VObject fs => map NObjectField fs | _ => [] end
  | NObjectField f => [NValue (snd f)]
  | NBooleanValue _ | NEnumValue _ | NFloatValue _ | NIntValue _ | NNullValue _ | NStringValue _ | NVariableValue _ => []
  | NTypes l => map NType l
  | NType t => match t with TNamed _ _ => [NNamedType t] | TList _ _ | TListNil => [NListType t] end
  | NListType t => match t with TList t' _ => [NType t'] | _ => [] end
  | NNamedType _ => []
  | NDirectiveDefinition d => nonnil NInputValueDefinitions (dd_args d)
  | NSchemaDefinition s | NSchemaExtension s => nonnil NDirectives (s_dirs s) ++ nonnil NOperationTypeDefinitions (s_ops s)
  | NOperationTypeDefinitions l => map NOperationTypeDefinition l
  | NOperationTypeDefinition o => [NType (ot_type o)]
  | NTypeDefinition t => [NTypeDefinitionKind (t_kind t) t]
  | NTypeDefinitionKind _ t =>
      nonnil NTypes (t_impl t) ++ nonnil NDirectives (t_dirs t) ++ nonnil NFieldDefinitions (t_fields t) ++
      nonnil NTypes (t_members t) ++ nonnil NEnumValueDefinitions (t_values t) ++ nonnil NInputValueDefinitions (t_inputs t)
  | NTypeExtension t => [NTypeExtensionKind (t_kind t) t]
  | NTypeExtensionKind _ t =>
      nonnil NDirectives (t_dirs t) ++ nonnil NTypes (t_impl t) ++ nonnil NFieldDefinitions (t_fields t) ++
      nonnil NTypes (t_members t) ++ nonnil NEnumValueDefinitions (t_values t) ++ nonnil NInputValueDefinitions (t_inputs t)
  | NFieldDefinitions l => map NFieldDefinition l
  | NFieldDefinition f => nonnil NInputValueDefinitions (fd_args f) ++ [NType (fd_type f)] ++ nonnil NDirectives (fd_dirs f)
  | NInputValueDefinitions l => map NInputValueDefinition l
  | NInputValueDefinition i => [NType (i_type i)] ++ nonnil NDirectives (i_dirs i) ++ some NValue (i_default i)
  | NEnumValueDefinitions l => map NEnumValueDefinition l
  | NEnumValueDefinition e => nonnil NDirectives (ev_dirs e)
  end.

(** Trees of AST nodes. *)
Inductive tree := Node (n : node) (cs : list tree).
Definition root (t : tree) : node := match t with Node n _ => n end.
Definition subtrees (t : tree) : list tree := match t with Node _ cs => cs end.
(** [t] is the tree of all nodes below its root. *)
Inductive ast_tree : tree -> Prop :=
| ast_node n cs : map root cs = kids n -> Forall ast_tree cs -> ast_tree (Node n cs).
(** Depth first: enter, the children from left to right, leave. *)
Fixpoint events (t : tree) : list (phase * node) :=
  match t with Node n cs => (Enter, n) :: flat_map events cs ++ [(Leave, n)] end.
(** The nodes of a tree, parents before children, from left to right. *)
Fixpoint preorder (t : tree) : list node := match t with Node n cs => n :: flat_map preorder cs end.
(** A node is in the document. *)
Inductive below : node -> node -> Prop :=
| below_refl n : below n n
| below_kid p n m : In n (kids p) -> below n m -> below p m.

(** ** Existence and uniqueness *)
Section tree_ind.
  Variable P : tree -> Prop.
  Hypothesis H : forall n cs, Forall P cs -> P (Node n cs).
  Fixpoint tree_nest (t : tree) : P t :=
    match t with Node n cs => H n cs ((fix go l := match l return Forall P l with
                                                     | [] => Forall_nil _
                                                     | x :: r => Forall_cons _ (tree_nest x) (go r) end) cs) end.
End tree_ind.

Lemma ast_tree_unique t : forall t', ast_tree t -> ast_tree t' -> root t = root t' -> t = t'.
Proof.
  induction t as [n cs IH] using tree_nest. intros [n' cs'] H1 H2 E. cbn in E. subst n'. inversion H1 as [? ? K1 F1]; inversion H2 as [? ? K2 F2]; subst.
  f_equal. clear H1 H2. rewrite <- K2 in K1. clear K2. revert cs' K1 F2. induction cs as [|c cs IHc]; intros [|c' cs'] K F2; try discriminate; [reflexivity|].
  cbn in K. injection K as K0 K. inversion IH; inversion F1; inversion F2; subst. f_equal; auto.
Qed.

(** The trees, by recursion on the AST. *)
Fixpoint tValue (v : value) : tree :=
  Node (NValue v) [match v with
    | VBool _ => Node (NBooleanValue v) [] | VEnum _ => Node (NEnumValue v) [] | VFloat _ => Node (NFloatValue v) []
    | VInt _ => Node (NIntValue v) [] | VList l => Node (NListValue v) (map tValue l) | VNull => Node (NNullValue v) []
    | VObject fs => Node (NObjectValue v) (map (fun f => Node (NObjectField f) [tValue (snd f)]) fs)
    | VString _ => Node (NStringValue v) [] | VVar _ => Node (NVariableValue v) [] end].
Definition tNonnil {X} (f : list X -> tree) (l : list X) : list tree := match l with [] => [] | _ => [f l] end.
Definition tSome {X} (f : X -> tree) (o : option X) : list tree := match o with None => [] | Some x => [f x] end.
Definition tArgument (a : argument) := Node (NArgument a) [tValue (arg_value a)].
Definition tArguments (l : list argument) := Node (NArguments l) (map tArgument l).
Definition tDirective (d : directive) := Node (NDirective d) (tNonnil tArguments (d_args d)).
Definition tDirectives (l : list directive) := Node (NDirectives l) (map tDirective l).
Fixpoint tType (t : ty) : tree :=
  Node (NType t) [match t with TNamed _ _ => Node (NNamedType t) [] | TList t' _ => Node (NListType t) [tType t'] | TListNil => Node (NListType t) [] end].
Definition tTypes (l : list ty) := Node (NTypes l) (map tType l).
Definition tTypeCondition (t : ty) := Node (NTypeCondition t) [tType t].
Definition tVariableDefinition (v : vardef) := Node (NVariableDefinition v) ([tType (v_type v)] ++ tSome tValue (v_default v)).
Definition tVariableDefinitions (l : list vardef) := Node (NVariableDefinitions l) (map tVariableDefinition l).
Fixpoint tSelection (s : selection) : tree :=
  Node (NSelection s) [match s with
    | SField _ _ args dirs sels => Node (NFieldSelection s)
        (tNonnil tArguments args ++ tNonnil tDirectives dirs ++ tNonnil (fun l => Node (NSelections l) (map tSelection sels)) sels)
    | SSpread _ dirs => Node (NFragmentSpread s) (tNonnil tDirectives dirs)
    | SInline cond dirs sels => Node (NInlineFragment s)
        (tSome tTypeCondition cond ++ tNonnil tDirectives dirs ++ tNonnil (fun l => Node (NSelections l) (map tSelection sels)) sels)
    end].
Definition tSelections (l : list selection) := Node (NSelections l) (map tSelection l).
Definition tOperation (o : opdef) := Node (NOperation o) [Node (NOperationKind (o_kind o) o)
  (tNonnil tVariableDefinitions (o_vars o) ++ tNonnil tDirectives (o_dirs o) ++ tNonnil tSelections (o_sels o))].
Definition tFragment (f : fragdef) := Node (NFragment f)
  ([tTypeCondition (f_cond f)] ++ tNonnil tDirectives (f_dirs f) ++ tNonnil tSelections (f_sels f)).
Definition tInputValue (i : ivdef) := Node (NInputValueDefinition i)
  ([tType (i_type i)] ++ tNonnil tDirectives (i_dirs i) ++ tSome tValue (i_default i)).
Definition tInputValues (l : list ivdef) := Node (NInputValueDefinitions l) (map tInputValue l).
Definition tField (f : fielddef) := Node (NFieldDefinition f)
  (tNonnil tInputValues (fd_args f) ++ [tType (fd_type f)] ++ tNonnil tDirectives (fd_dirs f)).
Definition tFields (l : list fielddef) := Node (NFieldDefinitions l) (map tField l).
Definition tEnumValue (e : enumval) := Node (NEnumValueDefinition e) (tNonnil tDirectives (ev_dirs e)).
Definition tEnumValues (l : list enumval) := Node (NEnumValueDefinitions l) (map tEnumValue l).
Definition tTypeDefinition (t : tydef) := Node (NTypeDefinition t) [Node (NTypeDefinitionKind (t_kind t) t)
  (tNonnil tTypes (t_impl t) ++ tNonnil tDirectives (t_dirs t) ++ tNonnil tFields (t_fields t) ++ tNonnil tTypes (t_members t) ++
   tNonnil tEnumValues (t_values t) ++ tNonnil tInputValues (t_inputs t))].
Definition tTypeExtension (t : tydef) := Node (NTypeExtension t) [Node (NTypeExtensionKind (t_kind t) t)
  (tNonnil tDirectives (t_dirs t) ++ tNonnil tTypes (t_impl t) ++ tNonnil tFields (t_fields t) ++ tNonnil tTypes (t_members t) ++
   tNonnil tEnumValues (t_values t) ++ tNonnil tInputValues (t_inputs t))].
Definition tDirectiveDefinition (d : dirdef) := Node (NDirectiveDefinition d) (tNonnil tInputValues (dd_args d)).
Definition tOpType (o : optype) := Node (NOperationTypeDefinition o) [tType (ot_type o)].
Definition tOpTypes (l : list optype) := Node (NOperationTypeDefinitions l) (map tOpType l).
Definition tSchemaDefinition (s : schemadef) := Node (NSchemaDefinition s) (tNonnil tDirectives (s_dirs s) ++ tNonnil tOpTypes (s_ops s)).
Definition tSchemaExtension (s : schemadef) := Node (NSchemaExtension s) (tNonnil tDirectives (s_dirs s) ++ tNonnil tOpTypes (s_ops s)).
Definition tBody (i : nat) (b : body) : tree :=
  match b with
  | DOp o => Node (NExecutable i b) [tOperation o]
  | DFrag f => Node (NExecutable i b) [tFragment f]
  | DSchema s => Node (NTypeSystem b) [tSchemaDefinition s]
  | DType t => Node (NTypeSystem b) [tTypeDefinition t]
  | DDir d => Node (NTypeSystem b) [tDirectiveDefinition d]
  | XSchema s => Node (NTypeSystemExt b) [tSchemaExtension s]
  | XType t => Node (NTypeSystemExt b) [tTypeExtension t]
  end.
Definition tDefinition (p : nat * definition) := Node (NDefinition (fst p) (snd p)) [tBody (fst p) (def_body (snd p))].
Definition tDefinitions (l : list definition) := Node (NDefinitions l) (map tDefinition (numbered l)).
Definition tDocument (d : document) := Node (NDocument d) (tNonnil tDefinitions (doc_defs d)).

(** The nodes of a document. *)
Definition nodes (d : document) : list node := preorder (tDocument d).

(** ** They are the AST trees *)
Lemma roots_nonnil {X} (f : list X -> tree) g l : (forall l, root (f l) = g l) -> map root (tNonnil f l) = nonnil g l.
Proof. intros H. destruct l; cbn; [reflexivity|]. rewrite H. reflexivity. Qed.
Lemma roots_some {X} (f : X -> tree) g o : (forall x, root (f x) = g x) -> map root (tSome f o) = some g o.
Proof. intros H. destruct o; cbn; [rewrite H|]; reflexivity. Qed.
Lemma roots_map {X} (f : X -> tree) g l : (forall x, root (f x) = g x) -> map root (map f l) = map g l.
Proof. intros H. rewrite map_map. apply map_ext, H. Qed.
Lemma ok_nonnil {X} (f : list X -> tree) l : ast_tree (f l) -> Forall ast_tree (tNonnil f l).
Proof. intros H. destruct l; cbn; constructor; [exact H|constructor]. Qed.
Lemma ok_some {X} (f : X -> tree) o : (forall x, ast_tree (f x)) -> Forall ast_tree (tSome f o).
Proof. intros H. destruct o; cbn; constructor; [apply H|constructor]. Qed.
Lemma ok_map {X} (f : X -> tree) l : (forall x, ast_tree (f x)) -> Forall ast_tree (map f l).
Proof. intros H. induction l; constructor; auto. Qed.
Lemma rSel x : root (tSelection x) = NSelection x. Proof. destruct x; reflexivity. Qed.
Lemma rVal x : root (tValue x) = NValue x. Proof. destruct x; reflexivity. Qed.
Lemma rTy x : root (tType x) = NType x. Proof. destruct x; reflexivity. Qed.
Ltac rt := rewrite ?map_app; cbn [map]; repeat (erewrite roots_nonnil by (intros; reflexivity)); repeat (erewrite roots_some by (intros; apply rVal || reflexivity));
  rewrite ?rTy, ?rVal; try reflexivity.
Ltac fa := repeat first [apply Forall_app; split | apply Forall_cons | apply Forall_nil | apply ok_nonnil | apply ok_some; intros | apply ok_map; intros].
Lemma ok_value v : ast_tree (tValue v).
Proof.
  induction v as [| | | | | | |l IH|fs IH] using value_nest;
    try solve [constructor; [reflexivity|]; constructor; [|constructor]; constructor; [reflexivity|constructor]].
  - constructor; [reflexivity|]. constructor; [|constructor]. constructor.
    + apply roots_map, rVal.
    + apply Forall_forall. intros t Ht. apply in_map_iff in Ht. destruct Ht as (x & <- & Hx). rewrite Forall_forall in IH. auto.
  - constructor; [reflexivity|]. constructor; [|constructor]. constructor.
    + apply roots_map. reflexivity.
    + apply Forall_forall. intros t Ht. apply in_map_iff in Ht. destruct Ht as (x & <- & Hx). rewrite Forall_forall in IH.
      constructor; [cbn; rewrite rVal; reflexivity|]. constructor; [auto|constructor].
Qed.
Lemma ok_argument a : ast_tree (tArgument a).
Proof. constructor; [cbn; rewrite rVal; reflexivity|]. fa. apply ok_value. Qed.
Lemma ok_arguments a : ast_tree (tArguments a).
Proof. constructor; [apply roots_map; reflexivity|]. fa. apply ok_argument. Qed.
Lemma ok_directive a : ast_tree (tDirective a).
Proof. constructor; [apply roots_nonnil; reflexivity|]. fa. apply ok_arguments. Qed.
Lemma ok_directives a : ast_tree (tDirectives a).
Proof. constructor; [apply roots_map; reflexivity|]. fa. apply ok_directive. Qed.
Lemma ok_type t : ast_tree (tType t).
Proof.
  induction t; (constructor; [reflexivity|]); (constructor; [|constructor]); (constructor; [cbn; rewrite ?rTy; reflexivity|]); fa. exact IHt.
Qed.
Lemma ok_types l : ast_tree (tTypes l).
Proof. constructor; [apply roots_map, rTy|]. fa. apply ok_type. Qed.
Lemma ok_typecond t : ast_tree (tTypeCondition t).
Proof. constructor; [cbn; rewrite rTy; reflexivity|]. fa. apply ok_type. Qed.
Lemma ok_vardef t : ast_tree (tVariableDefinition t).
Proof. constructor; [cbn [kids]; rt|]. fa; [apply ok_type|apply ok_value]. Qed.
Lemma ok_vardefs l : ast_tree (tVariableDefinitions l).
Proof. constructor; [apply roots_map; reflexivity|]. fa. apply ok_vardef. Qed.
Lemma ok_selection s : ast_tree (tSelection s).
Proof.
  induction s as [al n args ds ss IH|n ds|c ds ss IH] using selection_nest; (constructor; [reflexivity|]); fa.
  - constructor; [cbn [kids]; rt|]. fa; [apply ok_arguments|apply ok_directives|]. constructor; [apply roots_map, rSel|].
    apply Forall_forall. intros t Ht. apply in_map_iff in Ht. destruct Ht as (x & <- & Hx). rewrite Forall_forall in IH. auto.
  - constructor; [cbn [kids]; rt|]. fa. apply ok_directives.
  - constructor.
    { cbn [kids]. rewrite !map_app. f_equal; [destruct c; reflexivity|]. f_equal; [destruct ds; reflexivity|destruct ss; reflexivity]. }
    fa; [apply ok_typecond|apply ok_directives|]. constructor; [apply roots_map, rSel|].
    apply Forall_forall. intros t Ht. apply in_map_iff in Ht. destruct Ht as (x & <- & Hx). rewrite Forall_forall in IH. auto.
Qed.
Lemma ok_selections l : ast_tree (tSelections l).
Proof. constructor; [apply roots_map, rSel|]. fa. apply ok_selection. Qed.
Lemma ok_operation o : ast_tree (tOperation o).
Proof. constructor; [reflexivity|]. fa. constructor; [cbn [kids]; rt|]. fa; [apply ok_vardefs|apply ok_directives|apply ok_selections]. Qed.
Lemma ok_fragment o : ast_tree (tFragment o).
Proof. constructor; [cbn [kids]; rt|]. fa; [apply ok_typecond|apply ok_directives|apply ok_selections]. Qed.
Lemma ok_inputvalue o : ast_tree (tInputValue o).
Proof. constructor; [cbn [kids]; rt|]. fa; [apply ok_type|apply ok_directives|apply ok_value]. Qed.
Lemma ok_inputvalues l : ast_tree (tInputValues l).
Proof. constructor; [apply roots_map; reflexivity|]. fa. apply ok_inputvalue. Qed.
Lemma ok_field o : ast_tree (tField o).
Proof. constructor; [cbn [kids]; rt|]. fa; [apply ok_inputvalues|apply ok_type|apply ok_directives]. Qed.
Lemma ok_fields l : ast_tree (tFields l).
Proof. constructor; [apply roots_map; reflexivity|]. fa. apply ok_field. Qed.
Lemma ok_enumvalue o : ast_tree (tEnumValue o).
Proof. constructor; [cbn [kids]; rt|]. fa. apply ok_directives. Qed.
Lemma ok_enumvalues l : ast_tree (tEnumValues l).
Proof. constructor; [apply roots_map; reflexivity|]. fa. apply ok_enumvalue. Qed.
Lemma ok_typedef o : ast_tree (tTypeDefinition o).
Proof.
  constructor; [reflexivity|]. fa. constructor; [cbn [kids]; rt|].
  fa; [apply ok_types|apply ok_directives|apply ok_fields|apply ok_types|apply ok_enumvalues|apply ok_inputvalues].
Qed.
Lemma ok_typeext o : ast_tree (tTypeExtension o).
Proof.
  constructor; [reflexivity|]. fa. constructor; [cbn [kids]; rt|].
  fa; [apply ok_directives|apply ok_types|apply ok_fields|apply ok_types|apply ok_enumvalues|apply ok_inputvalues].
Qed.
Lemma ok_dirdef o : ast_tree (tDirectiveDefinition o).
Proof. constructor; [cbn [kids]; rt|]. fa. apply ok_inputvalues. Qed.
Lemma ok_optype o : ast_tree (tOpType o).
Proof. constructor; [cbn [kids]; rt|]. fa. apply ok_type. Qed.
Lemma ok_optypes l : ast_tree (tOpTypes l).
Proof. constructor; [apply roots_map; reflexivity|]. fa. apply ok_optype. Qed.
Lemma ok_schemadef o : ast_tree (tSchemaDefinition o).
Proof. constructor; [cbn [kids]; rt|]. fa; [apply ok_directives|apply ok_optypes]. Qed.
Lemma ok_schemaext o : ast_tree (tSchemaExtension o).
Proof. constructor; [cbn [kids]; rt|]. fa; [apply ok_directives|apply ok_optypes]. Qed.
Lemma ok_body i b : ast_tree (tBody i b).
Proof.
  destruct b; (constructor; [reflexivity|]); fa;
    [apply ok_operation|apply ok_fragment|apply ok_schemadef|apply ok_typedef|apply ok_dirdef|apply ok_schemaext|apply ok_typeext].
Qed.
Lemma ok_definition p : ast_tree (tDefinition p).
Proof. constructor; [destruct p as [i [? ? b]]; destruct b; reflexivity|]. fa. apply ok_body. Qed.
Lemma ok_definitions l : ast_tree (tDefinitions l).
Proof. constructor; [apply roots_map; reflexivity|]. fa. apply ok_definition. Qed.
Lemma ok_document d : ast_tree (tDocument d).
Proof. constructor; [apply roots_nonnil; reflexivity|]. fa. apply ok_definitions. Qed.

(** ** [preorder] lists exactly what is below the root *)
Lemma preorder_below t : ast_tree t -> forall m, In m (preorder t) <-> below (root t) m.
Proof.
  induction t as [n cs IH] using tree_nest. intros H m. inversion H as [? ? K F]; subst. cbn [preorder root]. split.
  - intros [->|Hin]; [constructor|]. apply in_flat_map in Hin. destruct Hin as (c & Hc & Hm).
    rewrite Forall_forall in IH, F. econstructor 2; [|apply (IH c Hc (F c Hc)); exact Hm]. rewrite <- K. apply in_map, Hc.
  - intros Hb. inversion Hb as [|p k q Hk Hb' Hp Hq]; subst; [left; reflexivity|]. right. rewrite <- K in Hk. apply in_map_iff in Hk.
    destruct Hk as (c & <- & Hc). apply in_flat_map. exists c. split; [exact Hc|]. rewrite Forall_forall in IH, F. apply (IH c Hc (F c Hc)). exact Hb'.
Qed.
Lemma nodes_below d m : In m (nodes d) <-> below (NDocument d) m.
Proof. apply (preorder_below _ (ok_document d)). Qed.

(** Enter events are the preorder; leave events are the same nodes. *)
Definition at_phase (ph : phase) (es : list (phase * node)) : list node :=
  map snd (filter (fun e => if phase_eq_dec (fst e) ph then true else false) es).
Lemma at_phase_app ph a b : at_phase ph (a ++ b) = at_phase ph a ++ at_phase ph b.
Proof. unfold at_phase. rewrite filter_app, map_app. reflexivity. Qed.
Lemma events_enter t : at_phase Enter (events t) = preorder t.
Proof.
  induction t as [n cs IH] using tree_nest. cbn [events preorder]. change ((Enter, n) :: flat_map events cs ++ [(Leave, n)]) with ([(Enter, n)] ++ flat_map events cs ++ [(Leave, n)]).
  rewrite !at_phase_app. change (at_phase Enter [(Enter, n)]) with [n]. change (at_phase Enter [(Leave, n)]) with (@nil node). cbn [app]. f_equal. rewrite app_nil_r.
  induction IH as [|c cs Hc _ IHc]; [reflexivity|]. cbn [flat_map]. rewrite at_phase_app, Hc, IHc. reflexivity.
Qed.
(** Leave events are the postorder. *)
Fixpoint postorder (t : tree) : list node := match t with Node n cs => flat_map postorder cs ++ [n] end.
Lemma events_leave t : at_phase Leave (events t) = postorder t.
Proof.
  induction t as [n cs IH] using tree_nest. cbn [events postorder]. change ((Enter, n) :: flat_map events cs ++ [(Leave, n)]) with ([(Enter, n)] ++ flat_map events cs ++ [(Leave, n)]).
  rewrite !at_phase_app. change (at_phase Leave [(Enter, n)]) with (@nil node). change (at_phase Leave [(Leave, n)]) with [n]. cbn [app]. f_equal.
  induction IH as [|c cs Hc _ IHc]; [reflexivity|]. cbn [flat_map]. rewrite at_phase_app, Hc, IHc. reflexivity.
Qed.
From Coq Require Import Permutation.
Lemma post_pre t : Permutation (postorder t) (preorder t).
Proof.
  induction t as [n cs IH] using tree_nest. cbn. rewrite Permutation_app_comm. cbn. constructor.
  induction IH as [|c cs Hc _ IHc]; [constructor|]. cbn. apply Permutation_app; assumption.
Qed.

(** ** The walker follows the events *)
Section W.
Context {C : Type}.
Variable w : walker C.
Definition step (c : C) (e : phase * node) : C := fold_left (fun c h => h c (snd e)) (w (fst e) (ntype_of (snd e))) c.
Definition run_events (es : list (phase * node)) (c : C) : C := fold_left step es c.
Definition run (t : tree) : C -> C := run_events (events t).
Definition runs (ts : list tree) (c : C) : C := fold_left (fun c t => run t c) ts c.
Lemma run_events_app a b c : run_events (a ++ b) c = run_events b (run_events a c).
Proof. apply fold_left_app. Qed.
Lemma runs_flat ts c : run_events (flat_map events ts) c = runs ts c.
Proof. revert c. induction ts as [|t ts IH]; intros c; [reflexivity|]. cbn [flat_map]. rewrite run_events_app, IH. reflexivity. Qed.
Lemma runs_app a b c : runs (a ++ b) c = runs b (runs a c).
Proof. apply fold_left_app. Qed.
Lemma run_node n cs f c : (forall c, f c = runs cs c) -> around w n f c = run (Node n cs) c.
Proof.
  intros H. unfold around, run. cbn [events]. change ((Enter, n) :: flat_map events cs ++ [(Leave, n)]) with ([(Enter, n)] ++ flat_map events cs ++ [(Leave, n)]).
  rewrite !run_events_app. cbn [run_events fold_left]. rewrite runs_flat, <- H. reflexivity.
Qed.
Lemma each_runs {X} (f : X -> C -> C) g (l : list X) c : (forall x, In x l -> forall c, f x c = run (g x) c) -> each f l c = runs (map g l) c.
Proof.
  revert c. induction l as [|x l IH]; intros c H; [reflexivity|]. cbn. rewrite H by (left; reflexivity). apply IH. intros y Hy. apply H. right. exact Hy.
Qed.
Lemma nonnil_runs {X} (l : list X) f g c : (forall c, f l c = run (g l) c) -> if_nonnil l f c = runs (tNonnil g l) c.
Proof. intros H. destruct l; cbn; [reflexivity|]. apply H. Qed.
Lemma some_runs {X} (o : option X) f g c : (forall x c, f x c = run (g x) c) -> if_some o f c = runs (tSome g o) c.
Proof. intros H. destruct o; cbn; [apply H|reflexivity]. Qed.

Lemma walkValue_run v : forall c, walkValue w v c = run (tValue v) c.
Proof.
  induction v as [| | | | | | |l IH|fs IH] using value_nest; intros c; cbn [walkValue tValue]; apply run_node; intros c1; cbn [runs fold_left];
    apply run_node; intros c2; try reflexivity.
  - rewrite Forall_forall in IH. apply (each_runs (walkValue w)). exact IH.
  - rewrite Forall_forall in IH. apply (each_runs (fun f => around w (NObjectField f) (walkValue w (snd f)))).
    intros x Hx c3. apply run_node. intros c4. cbn. apply IH, Hx.
Qed.
Lemma walkArgument_run a c : walkArgument w a c = run (tArgument a) c.
Proof. apply run_node. intros c1. cbn. apply walkValue_run. Qed.
Lemma walkArguments_run l c : walkArguments w l c = run (tArguments l) c.
Proof. apply run_node. intros c1. apply each_runs. intros. apply walkArgument_run. Qed.
Lemma walkDirective_run a c : walkDirective w a c = run (tDirective a) c.
Proof. apply run_node. intros c1. apply nonnil_runs, walkArguments_run. Qed.
Lemma walkDirectives_run l c : walkDirectives w l c = run (tDirectives l) c.
Proof. apply run_node. intros c1. apply each_runs. intros. apply walkDirective_run. Qed.
Lemma walkType_run t : forall c, walkType w t c = run (tType t) c.
Proof.
  induction t as [n nn|t IH nn|]; intros c; cbn [walkType tType]; apply run_node; intros c1; cbn [runs fold_left]; apply run_node; intros c2; try reflexivity.
  cbn. apply IH.
Qed.
Lemma walkTypes_run l c : walkTypes w l c = run (tTypes l) c.
Proof. apply run_node. intros c1. apply each_runs. intros. apply walkType_run. Qed.
Lemma walkTypeCondition_run t c : walkTypeCondition w t c = run (tTypeCondition t) c.
Proof. apply run_node. intros c1. cbn. apply walkType_run. Qed.
Ltac wk := intros; rewrite ?runs_app; cbn [runs fold_left];
  repeat first
   [ progress (rewrite ?walkType_run, ?walkTypeCondition_run)
   | rewrite (nonnil_runs _ _ tArguments) by (intros; apply walkArguments_run)
   | rewrite (nonnil_runs _ _ tDirectives) by (intros; apply walkDirectives_run)
   | rewrite (some_runs _ _ tValue) by (intros; apply walkValue_run)
   | rewrite (some_runs _ _ tTypeCondition) by (intros; apply walkTypeCondition_run)
   | rewrite (nonnil_runs _ _ tTypes) by (intros; apply walkTypes_run) ].
Lemma walkVariableDefinition_run v c : walkVariableDefinition w v c = run (tVariableDefinition v) c.
Proof. apply run_node. wk. reflexivity. Qed.
Lemma walkVariableDefinitions_run l c : walkVariableDefinitions w l c = run (tVariableDefinitions l) c.
Proof. apply run_node. intros c1. apply each_runs. intros. apply walkVariableDefinition_run. Qed.
Lemma walkSelection_run s : forall c, walkSelection w s c = run (tSelection s) c.
Proof.
  induction s as [al n args ds ss IH|n ds|cd ds ss IH] using selection_nest; intros c; cbn [walkSelection tSelection]; apply run_node; intros c1; cbn [runs fold_left];
    apply run_node; wk; try reflexivity.
  - apply nonnil_runs. intros c3. apply run_node. intros c4. apply (each_runs (walkSelection w)). rewrite Forall_forall in IH. exact IH.
  - apply nonnil_runs. intros c3. apply run_node. intros c4. apply (each_runs (walkSelection w)). rewrite Forall_forall in IH. exact IH.
Qed.
Lemma walkSelections_run l c : walkSelections w l c = run (tSelections l) c.
Proof. apply run_node. intros c1. apply each_runs. intros. apply walkSelection_run. Qed.
Lemma walkOperationDefinition_run o c : walkOperationDefinition w o c = run (tOperation o) c.
Proof.
  apply run_node. intros c1. cbn [runs fold_left]. apply run_node. wk. rewrite (nonnil_runs _ _ tVariableDefinitions) by (intros; apply walkVariableDefinitions_run).
  apply nonnil_runs, walkSelections_run.
Qed.
Lemma walkFragmentDefinition_run o c : walkFragmentDefinition w o c = run (tFragment o) c.
Proof. apply run_node. wk. apply nonnil_runs, walkSelections_run. Qed.
Lemma walkInputValueDefinition_run o c : walkInputValueDefinition w o c = run (tInputValue o) c.
Proof. apply run_node. wk. reflexivity. Qed.
Lemma walkInputValueDefinitions_run l c : walkInputValueDefinitions w l c = run (tInputValues l) c.
Proof. apply run_node. intros c1. apply each_runs. intros. apply walkInputValueDefinition_run. Qed.
Lemma walkFieldDefinition_run o c : walkFieldDefinition w o c = run (tField o) c.
Proof. apply run_node. wk. rewrite (nonnil_runs _ _ tInputValues) by (intros; apply walkInputValueDefinitions_run). reflexivity. Qed.
Lemma walkFieldDefinitions_run l c : walkFieldDefinitions w l c = run (tFields l) c.
Proof. apply run_node. intros c1. apply each_runs. intros. apply walkFieldDefinition_run. Qed.
Lemma walkEnumValueDefinition_run o c : walkEnumValueDefinition w o c = run (tEnumValue o) c.
Proof. apply run_node. wk. reflexivity. Qed.
Lemma walkEnumValueDefinitions_run l c : walkEnumValueDefinitions w l c = run (tEnumValues l) c.
Proof. apply run_node. intros c1. apply each_runs. intros. apply walkEnumValueDefinition_run. Qed.
Lemma walkTypeDefinition_run o c : walkTypeDefinition w o c = run (tTypeDefinition o) c.
Proof.
  apply run_node. intros c1. cbn [runs fold_left]. apply run_node. wk.
  rewrite (nonnil_runs _ _ tFields) by (intros; apply walkFieldDefinitions_run).
  rewrite (nonnil_runs _ _ tEnumValues) by (intros; apply walkEnumValueDefinitions_run).
  apply nonnil_runs, walkInputValueDefinitions_run.
Qed.
Lemma walkTypeExtension_run o c : walkTypeExtension w o c = run (tTypeExtension o) c.
Proof.
  apply run_node. intros c1. cbn [runs fold_left]. apply run_node. wk.
  rewrite (nonnil_runs _ _ tFields) by (intros; apply walkFieldDefinitions_run).
  rewrite (nonnil_runs _ _ tEnumValues) by (intros; apply walkEnumValueDefinitions_run).
  apply nonnil_runs, walkInputValueDefinitions_run.
Qed.
Lemma walkDirectiveDefinition_run o c : walkDirectiveDefinition w o c = run (tDirectiveDefinition o) c.
Proof. apply run_node. intros c1. apply nonnil_runs, walkInputValueDefinitions_run. Qed.
Lemma walkOperationTypeDefinition_run o c : walkOperationTypeDefinition w o c = run (tOpType o) c.
Proof. apply run_node. wk. reflexivity. Qed.
Lemma walkOperationTypeDefinitions_run l c : walkOperationTypeDefinitions w l c = run (tOpTypes l) c.
Proof. apply run_node. intros c1. apply each_runs. intros. apply walkOperationTypeDefinition_run. Qed.
Lemma walkSchemaDefinition_run o c : walkSchemaDefinition w o c = run (tSchemaDefinition o) c.
Proof. apply run_node. wk. apply nonnil_runs, walkOperationTypeDefinitions_run. Qed.
Lemma walkSchemaExtension_run o c : walkSchemaExtension w o c = run (tSchemaExtension o) c.
Proof. apply run_node. wk. apply nonnil_runs, walkOperationTypeDefinitions_run. Qed.
Lemma walkDefinition_run i d c : walkDefinition w i d c = run (tDefinition (i, d)) c.
Proof.
  destruct d as [l k b]. unfold walkDefinition, tDefinition. cbn [fst snd def_body]. apply run_node. intros c1. cbn [runs fold_left].
  destruct b; cbn [tBody]; apply run_node; intros c2; cbn [runs fold_left];
    [apply walkOperationDefinition_run|apply walkFragmentDefinition_run|apply walkSchemaDefinition_run|apply walkTypeDefinition_run|
     apply walkDirectiveDefinition_run|apply walkSchemaExtension_run|apply walkTypeExtension_run].
Qed.
Lemma walkDefinitions_run l c : walkDefinitions w l c = run (tDefinitions l) c.
Proof. apply run_node. intros c1. apply each_runs. intros [i d] _ c2. apply walkDefinition_run. Qed.
Lemma walk_run d c : walk w d c = run_events (events (tDocument d)) c.
Proof. apply run_node. intros c1. apply nonnil_runs, walkDefinitions_run. Qed.
End W.
