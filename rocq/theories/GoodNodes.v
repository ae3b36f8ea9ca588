(** * GoodNodes: every node of a well-formed document is well-formed. *)
From Verif Require Import Base AST Walker WalkSpec Context CtxProofs WellFormed.

Definition placed (p : dirloc) : Prop := exists n, In n location_names /\ p = location_by_name n.
Section Good.
Variable ident : bytes -> Prop.
Variable float : bytes -> Prop.
Local Notation wfd := (wf_directives ident float).
Local Notation wfi := (wf_input ident float).
Local Notation wfb := (wf_body ident float).
Definition good_dirs (l : list directive) : Prop := exists p, placed p /\ wfd p l.
(** The contents of a node are well-formed; directives are at a place of the language. *)
Definition good (n : node) : Prop :=
  match n with
  | NDocument d => Forall (fun x => wfb (def_body x)) (doc_defs d)
  | NDefinitions ds => Forall (fun x => wfb (def_body x)) ds
  | NDefinition _ d => wfb (def_body d)
  | NExecutable _ b | NTypeSystem b | NTypeSystemExt b => wfb b
  | NOperation o | NOperationKind _ o => wf_operation ident float o
  | NFragment f => wf_fragment ident float f
  | NTypeCondition t | NType t | NListType t | NNamedType t => wf_type ident t
  | NVariableDefinitions l => Forall (wf_variable ident float) l
  | NVariableDefinition v => wf_variable ident float v
  | NSelections l => Forall (wf_selection ident float) l
  | NSelection s | NFieldSelection s | NFragmentSpread s | NInlineFragment s => wf_selection ident float s
  | NArguments l => wf_arguments ident float l
  | NArgument a => wf_arguments ident float [a]
  | NDirectives l => good_dirs l
  | NDirective d => good_dirs [d]
  | NValue v | NBooleanValue v | NEnumValue v | NFloatValue v | NIntValue v | NListValue v | NNullValue v | NObjectValue v | NStringValue v
  | NVariableValue v => wf_value ident float v
  | NObjectField f => ident (fst f) /\ wf_value ident float (snd f)
  | NTypes l => Forall (wf_type ident) l
  | NDirectiveDefinition d => wf_dirdef ident float d
  | NSchemaDefinition s | NSchemaExtension s => wf_schema ident float s
  | NOperationTypeDefinitions l => Forall (fun o => wf_named ident (ot_type o)) l
  | NOperationTypeDefinition o => wf_named ident (ot_type o)
  | NTypeDefinition t | NTypeDefinitionKind _ t | NTypeExtension t | NTypeExtensionKind _ t => wf_typedef ident float t
  | NFieldDefinitions l => Forall (wf_field ident float) l
  | NFieldDefinition f => wf_field ident float f
  | NInputValueDefinitions l => exists p, placed p /\ Forall (wfi p) l
  | NInputValueDefinition i => exists p, placed p /\ wfi p i
  | NEnumValueDefinitions l => Forall (wf_enum ident float) l
  | NEnumValueDefinition e => wf_enum ident float e
  end.

Ltac pl s := exists (B s); split; [vm_compute; tauto|reflexivity].
Lemma p_LQuery : placed LQuery. Proof. pl "QUERY"%string. Qed.
Lemma p_of k : placed (place_of k). Proof. destruct k; [pl "QUERY"%string|pl "MUTATION"%string|pl "SUBSCRIPTION"%string]. Qed.
Lemma p_of_type k : placed (place_of_type k).
Proof. destruct k; [pl "SCALAR"%string|pl "OBJECT"%string|pl "INTERFACE"%string|pl "UNION"%string|pl "ENUM"%string|pl "INPUT_OBJECT"%string]. Qed.
Lemma p_others : placed LField /\ placed LFragmentSpread /\ placed LInlineFragment /\ placed LFragmentDefinition /\ placed LArgumentDefinition /\
  placed LFieldDefinition /\ placed LEnumValue /\ placed LInputFieldDefinition /\ placed LSchema.
Proof.
  repeat split; [pl "FIELD"%string|pl "FRAGMENT_SPREAD"%string|pl "INLINE_FRAGMENT"%string|pl "FRAGMENT_DEFINITION"%string|pl "ARGUMENT_DEFINITION"%string
    |pl "FIELD_DEFINITION"%string|pl "ENUM_VALUE"%string|pl "INPUT_FIELD_DEFINITION"%string|pl "SCHEMA"%string].
Qed.
Lemma named_type t : wf_named ident t -> wf_type ident t. Proof. intros (n & nn & -> & H). exact H. Qed.
Ltac fa := match goal with H : Forall _ ?l, I : In _ ?l |- _ => rewrite Forall_forall in H; specialize (H _ I); assumption end.
Ltac dirs := eexists; (split; [|eassumption]); first [apply p_of|apply p_of_type|apply p_others].
Lemma in_some' {X} (f : X -> node) o n : In n (some f o) -> exists x, o = Some x /\ n = f x.
Proof. destruct o; cbn; [|intros []]. intros [<-|[]]. eauto. Qed.
Ltac gk := repeat match goal with
  | H : In _ (_ ++ _) |- _ => apply in_app_iff in H; destruct H as [H|H]
  | H : In _ (map _ _) |- _ => apply in_map_iff in H; destruct H as (? & <- & ?)
  | H : In _ (nonnil _ _) |- _ => apply in_nonnil in H; subst
  | H : In _ (some _ _) |- _ => apply in_some' in H; destruct H as (? & ? & ->)
  | H : In _ [] |- _ => destruct H
  | H : In _ (_ :: _) |- _ => destruct H as [<-|H]
  end.
Lemma good_kids n m : good n -> In m (kids n) -> good m.
Proof.
  pose proof p_others as P. intros G H. destruct n; cbn [kids good] in *; try (destruct H; fail);
    repeat match type of H with context [match ?x with _ => _ end] => destruct x eqn:? end; gk; cbn [good] in *; try assumption.
  all: try (rewrite Forall_forall in G; apply (G _ ltac:(eassumption)); fail).
  all: try (inversion G; subst; clear G; unfold wf_arguments, good_dirs in *; first [assumption|fa|dirs|apply named_type; eauto; fail|idtac]; fail).
  all: unfold wf_operation, wf_fragment, wf_variable, wf_field, wf_enum, wf_typedef, wf_schema, wf_dirdef, wf_default, good_dirs, wf_body in *;
    repeat match goal with H : _ /\ _ |- _ => destruct H end; try assumption; try (dirs; fail); try (apply named_type; assumption); try (eauto; fail); try (rewrite ?Heqo in *; eauto; fail).
  - destruct x as [j x]. match goal with K : In _ (combine _ _) |- _ => apply in_combine_r in K; rewrite Forall_forall in G; exact (G _ K) end.
  - unfold wf_arguments in *. rewrite Forall_forall in G. constructor; [apply G; assumption|constructor].
  - inversion G; subst. tauto.
  - destruct G as (p & Pp & G). exists p. split; [exact Pp|]. unfold wf_directives in *. rewrite Forall_forall in G. constructor; [apply G; assumption|constructor].
  - destruct G as (p & Pp & G). inversion G; subst. tauto.
  - destruct G as (p & Pp & G). exists p. split; [exact Pp|]. rewrite Forall_forall in G. apply G; assumption.
  - destruct G as (p & Pp & G). apply G.
  - destruct G as (p & Pp & G). exists p. split; [exact Pp|apply G].
  - destruct G as (p & Pp & G). apply G. assumption.
Qed.
Lemma good_below n m : below n m -> good n -> good m.
Proof. induction 1 as [|p n m H _ IH]; intros G; [exact G|]. apply IH. eapply good_kids; eassumption. Qed.
Lemma good_nodes d n : wf_document ident float d -> In n (nodes d) -> good n.
Proof. intros W H. apply nodes_below in H. apply (good_below _ _ H). apply W. Qed.
End Good.
