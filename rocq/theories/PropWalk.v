(** * PropWalk: C18 — the walker visits every node of the document once, in order and well nested. *)
From Coq Require Import Permutation.
From Verif Require Import Base AST Walker WalkSpec.

(** Whatever the handlers and the context, walking the document is: for the tree [t] of the document's nodes, run the enter
    handlers of a node, then walk its children from left to right, then run its leave handlers; the handlers of one event
    run in the order of the slice they were appended to. *)
Theorem C18_walk_order : forall (C : Type) (w : walker C) d, exists t, root t = NDocument d /\ ast_tree t /\
  forall c, walk w d c = fold_left (fun c e => fold_left (fun c h => h c (snd e)) (w (fst e) (ntype_of (snd e))) c) (events t) c.
Proof. intros C w d. exists (tDocument d). split; [reflexivity|]. split; [apply ok_document|]. apply walk_run. Qed.
Print Assumptions C18_walk_order.
(** and that tree is the only one. *)
Theorem C18_tree_unique : forall d t t', ast_tree t -> ast_tree t' -> root t = NDocument d -> root t' = NDocument d -> t = t'.
Proof. intros d t t' H H' R R'. apply ast_tree_unique; congruence. Qed.
Print Assumptions C18_tree_unique.

(** The walker that records every event. *)
Definition recorder : walker (list (phase * node)) := fun ph _ => [fun log n => log ++ [(ph, n)]].
Theorem C18_recorded : forall d t, root t = NDocument d -> ast_tree t -> walk recorder d [] = events t.
Proof.
  intros d t R H. rewrite (ast_tree_unique t (tDocument d) H (ok_document d) R), walk_run.
  assert (G : forall es log, run_events recorder es log = log ++ es).
  { induction es as [|[ph n] es IH]; intros log; [symmetry; apply app_nil_r|]. change (run_events recorder ((ph, n) :: es) log) with (run_events recorder es (log ++ [(ph, n)])). rewrite IH, <- app_assoc. reflexivity. }
  apply G.
Qed.
Print Assumptions C18_recorded.
(** A node is entered iff it is in the document; every node is left exactly as often as it is entered, which is the number
    of its occurrences in the tree. *)
Theorem C18_entered_iff_in_document : forall d n, In (Enter, n) (walk recorder d []) <-> below (NDocument d) n.
Proof.
  intros d n. rewrite (C18_recorded d (tDocument d) eq_refl (ok_document d)), <- nodes_below. unfold nodes.
  rewrite <- events_enter. unfold at_phase. rewrite in_map_iff. split.
  - intros H. exists (Enter, n). split; [reflexivity|]. apply filter_In. auto.
  - intros ([ph m] & E & H). cbn in E. subst m. apply filter_In in H. destruct H as [H E]. cbn in E. destruct (phase_eq_dec ph Enter) as [->|]; [exact H|discriminate].
Qed.
Print Assumptions C18_entered_iff_in_document.
Theorem C18_entered_once_left_once : forall d t, root t = NDocument d -> ast_tree t ->
  at_phase Enter (walk recorder d []) = preorder t /\ Permutation (at_phase Leave (walk recorder d [])) (preorder t).
Proof.
  intros d t R H. rewrite (C18_recorded d t R H). split; [apply events_enter|]. rewrite events_leave. apply post_pre.
Qed.
Print Assumptions C18_entered_once_left_once.
(** Well nested: the record is balanced like brackets (each leave matches the last open enter, of the same node), and the
    nodes entered directly inside a node are its children. *)
Inductive nested : list node -> list (phase * node) -> Prop :=
| nested_nil : nested [] []
| nested_node n ks inner rest : nested (kids n) inner -> nested ks rest -> nested (n :: ks) ((Enter, n) :: inner ++ (Leave, n) :: rest).
Theorem C18_well_nested : forall d, nested [NDocument d] (walk recorder d []).
Proof.
  intros d. rewrite (C18_recorded d (tDocument d) eq_refl (ok_document d)).
  assert (G : forall t, ast_tree t -> forall ks rest, nested ks rest -> nested (root t :: ks) (events t ++ rest)).
  { induction t as [n cs IH] using tree_nest. intros H ks rest Hr. inversion H as [? ? K F]; subst. cbn [root events].
    rewrite <- app_comm_cons, <- app_assoc. cbn [app]. constructor; [|exact Hr]. rewrite <- K. clear K H.
    induction cs as [|c cs IHc]; [constructor|]. inversion IH; inversion F; subst. cbn [map flat_map]. auto. }
  rewrite <- (app_nil_r (events _)). apply (G (tDocument d) (ok_document d)). constructor.
Qed.
Print Assumptions C18_well_nested.

(** Handlers run in registration order: after registering handlers one after the other, the slice of an event is the
    sublist of those registered for it. *)
Theorem C18_registration_order : forall (C : Type) (rs : list (phase * ntype * handler C)) (w : walker C) ph t,
  fold_left (fun w r => add_handler (fst (fst r)) (snd (fst r)) (snd r) w) rs w ph t =
  w ph t ++ map snd (filter (fun r => if phase_eq_dec (fst (fst r)) ph then if ntype_eq_dec (snd (fst r)) t then true else false else false) rs).
Proof.
  intros C rs. induction rs as [|[[p' t'] h] rs IH]; intros w ph t; [symmetry; apply app_nil_r|]. cbn [fold_left fst snd filter]. rewrite IH.
  unfold add_handler at 1. destruct (phase_eq_dec p' ph) as [E|E]; [destruct (ntype_eq_dec t' t) as [E'|E']|]; try reflexivity.
  cbn [map snd]. rewrite <- app_assoc. reflexivity.
Qed.
Print Assumptions C18_registration_order.

(** A document on which this says something: [query Q($v: Int = 1) { f(a: {b: [$v]}) @skip(if: true) ... @d { g } }]. *)
Definition sample_doc : document :=
  mkDoc [mkDef 1 1 (DOp (mkOp Query (B "Q") [mkVar (B "v") (TNamed (B "Int") false) (Some (VInt 1))] []
    [SField [] (B "f") [mkArg (B "a") (VObject [(B "b", VList [VVar (B "v")])])] [mkDir (B "skip") [mkArg (B "if") (VBool true)] LField] [];
     SInline None [mkDir (B "d") [] LInlineFragment] [SField [] (B "g") [] [] []]]))] 1 0 0 0 0 0 0.
Example C18_nonvacuous : List.length (walk recorder sample_doc []) = 74 /\
  In (Enter, NVariableValue (VVar (B "v"))) (walk recorder sample_doc []) /\ ast_tree (tDocument sample_doc).
Proof. split; [vm_compute; reflexivity|]. split; [|apply ok_document]. vm_compute. repeat first [left; reflexivity|right]. Qed.
