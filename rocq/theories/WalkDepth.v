(** * WalkDepth: how many nodes are open at once during a traversal.  Proofs for theorem C73. *)
From Coq Require Import Lia.
From Verif Require Import Base AST Walker WalkSpec DepthSpec.

(** ** Specification: the numbers of enter and of leave events. *)
Definition entered (es : list (phase * node)) : nat := List.length (filter (fun e => if phase_eq_dec (fst e) Enter then true else false) es).
Definition exited (es : list (phase * node)) : nat := List.length (filter (fun e => if phase_eq_dec (fst e) Leave then true else false) es).
(** At no time are more than [m] nodes entered and not yet exited. *)
Definition open_at_most (m : nat) (es : list (phase * node)) : Prop :=
  forall pre post, es = pre ++ post -> entered pre <= exited pre + m.

(** ** Proofs *)
Fixpoint height (t : tree) : nat := match t with Node _ cs => S (fold_right Nat.max 0 (map height cs)) end.
Definition hs (cs : list tree) : nat := fold_right Nat.max 0 (map height cs).
Lemma hs_le cs m : hs cs <= m <-> Forall (fun c => height c <= m) cs.
Proof.
  unfold hs. induction cs as [|c cs IH]; cbn [map fold_right]; [split; [constructor|lia]|]. split.
  - intros H. constructor; [lia|]. apply IH. lia.
  - intros H. inversion H; subst. rewrite <- IH in *. lia.
Qed.
Lemma height_node n cs : height (Node n cs) = S (hs cs). Proof. reflexivity. Qed.
Lemma hs_app a b : hs (a ++ b) = Nat.max (hs a) (hs b).
Proof. unfold hs. induction a as [|c a IH]; cbn [app map fold_right]; [reflexivity|]. rewrite IH. lia. Qed.
Lemma hs_cons c b : hs (c :: b) = Nat.max (height c) (hs b). Proof. reflexivity. Qed.
Lemma hs_nil : hs [] = 0. Proof. reflexivity. Qed.

Section Open.
Variable m : nat.
Definition P (cur : nat) (es : list (phase * node)) : Prop := forall pre post, es = pre ++ post -> cur + entered pre <= exited pre + m.
Lemma P_now cur es : P cur es -> cur <= m. Proof. intros H. specialize (H [] es eq_refl). cbn in H. lia. Qed.
Lemma P_nil cur : P cur [] <-> cur <= m.
Proof. split; [apply P_now|]. intros H pre post E. symmetry in E. apply app_eq_nil in E as [-> ->]. cbn. lia. Qed.
Lemma P_enter cur n r : P cur ((Enter, n) :: r) <-> P (S cur) r.
Proof.
  split; intros H.
  - intros pre post ->. specialize (H ((Enter, n) :: pre) post eq_refl). cbn in H. unfold entered, exited. lia.
  - pose proof (P_now _ _ H) as H0. intros [|e pre] post E; [cbn; lia|]. injection E as <- E. specialize (H pre post E). cbn. unfold entered, exited in H. lia.
Qed.
Lemma P_leave cur n r : P (S cur) ((Leave, n) :: r) <-> S cur <= m /\ P cur r.
Proof.
  split.
  - intros H. split; [exact (P_now _ _ H)|]. intros pre post ->. specialize (H ((Leave, n) :: pre) post eq_refl). cbn in H. unfold entered, exited. lia.
  - intros [H0 H]. intros [|e pre] post E; [cbn; lia|]. injection E as <- E. specialize (H pre post E). cbn. unfold entered, exited in H. lia.
Qed.
Lemma P_tree t : forall cur rest, P cur (events t ++ rest) <-> cur + height t <= m /\ P cur rest.
Proof.
  induction t as [n cs IH] using tree_nest. intros cur rest. cbn [events]. rewrite <- app_comm_cons, <- app_assoc, P_enter, height_node. cbn [app].
  assert (G : forall l rest', Forall (fun t => forall cur rest, P cur (events t ++ rest) <-> cur + height t <= m /\ P cur rest) l ->
    P (S cur) (flat_map events l ++ rest') <-> S cur + hs l <= m /\ P (S cur) rest').
  { induction l as [|c l IHl]; intros rest' F; cbn [flat_map].
    - cbn [app]. rewrite hs_nil. split; [intros H; split; [pose proof (P_now _ _ H); lia|exact H]|tauto].
    - pose proof (Forall_inv F) as F0. cbv beta in F0. rewrite <- app_assoc, F0, (IHl rest' (Forall_inv_tail F)), hs_cons. split; intros H; repeat split; try tauto; lia. }
  rewrite (G cs _ IH), P_leave. split; intros H; repeat split; try tauto; lia.
Qed.
End Open.
Lemma open_height m t : open_at_most m (events t) <-> height t <= m.
Proof. change (open_at_most m (events t)) with (P m 0 (events t)). rewrite <- (app_nil_r (events t)), P_tree, P_nil. cbn. lia. Qed.

(** ** No higher than ... *)
Lemma hs_nonnil {X} (f : list X -> tree) l m : (l <> [] -> height (f l) <= m) -> hs (tNonnil f l) <= m.
Proof. destruct l; intros H; cbn [tNonnil]; [cbn; lia|]. rewrite hs_cons, hs_nil. specialize (H ltac:(discriminate)). lia. Qed.
Lemma hs_some {X} (f : X -> tree) o m : (forall x, o = Some x -> height (f x) <= m) -> hs (tSome f o) <= m.
Proof. destruct o as [x|]; intros H; cbn [tSome]; [|cbn; lia]. rewrite hs_cons, hs_nil. specialize (H x eq_refl). lia. Qed.
Lemma hs_map {X} (f : X -> tree) l m : Forall (fun x => height (f x) <= m) l -> hs (map f l) <= m.
Proof. intros H. apply hs_le. apply Forall_map. exact H. Qed.
Lemma up_map {X} (f : X -> tree) (R : X -> Prop) l m : Forall R l -> (forall x, R x -> height (f x) <= m) -> hs (map f l) <= m.
Proof. intros H G. apply hs_map. eapply Forall_impl; [|exact H]. exact G. Qed.

Lemma up_value v : forall k, value_fits k v -> S (height (tValue v)) <= 3 * k.
Proof.
  induction v as [| | | | | | |l IH|fs IH] using value_nest; intros [|k] H; try (destruct H; fail); try (cbn; lia); cbn [value_fits] in H.
  - cbn [tValue]. rewrite !height_node, hs_cons, hs_nil, height_node.
    assert (hs (map tValue l) <= 3 * k - 1); [|lia]. apply hs_map, Forall_forall. intros x Hx. rewrite Forall_forall in IH, H. specialize (IH x Hx k (H x Hx)). lia.
  - cbn [tValue]. rewrite !height_node, hs_cons, hs_nil, height_node.
    assert (hs (map (fun f => Node (NObjectField f) [tValue (snd f)]) fs) <= 3 * k); [|lia]. apply hs_map, Forall_forall. intros x Hx. rewrite Forall_forall in IH, H. specialize (IH x Hx k (H x Hx)).
    rewrite height_node, hs_cons, hs_nil. lia.
Qed.
Lemma up_args k l : args_fit k l -> hs (tNonnil tArguments l) <= 3 * k + 1.
Proof.
  intros H. apply hs_nonnil. intros _. unfold tArguments. rewrite height_node.
  assert (hs (map tArgument l) <= 3 * k); [|lia]. eapply up_map; [exact H|]. intros a Ha. unfold tArgument. rewrite height_node, hs_cons, hs_nil.
  apply up_value in Ha. lia.
Qed.
Lemma up_dirs k l : dirs_fit k l -> hs (tNonnil tDirectives l) <= 3 * k + 3.
Proof.
  intros H. apply hs_nonnil. intros _. unfold tDirectives. rewrite height_node.
  assert (hs (map tDirective l) <= 3 * k + 2); [|lia]. eapply up_map; [exact H|]. intros a Ha. unfold tDirective. rewrite height_node.
  apply up_args in Ha. lia.
Qed.
Lemma up_type t : forall k, ty_fits k t -> height (tType t) <= 2 * k.
Proof.
  induction t as [n nn|t IH nn|]; intros [|k] H; try (destruct H; fail); cbn [ty_fits] in H.
  - cbn. lia.
  - cbn [tType]. rewrite !height_node, hs_cons, hs_nil, height_node, hs_cons, hs_nil. apply IH in H. lia.
  - cbn. lia.
Qed.
Lemma up_sels k : forall l, sels_fit k l -> height (tSelections l) <= 3 * k + 3.
Proof.
  induction k as [|k IH]; intros l H; [destruct H|]. cbn [sels_fit] in H. unfold tSelections. rewrite height_node.
  assert (hs (map tSelection l) <= 3 * k + 5); [|lia]. eapply up_map; [exact H|]. intros s Hs. cbv beta in Hs.
  destruct s as [al n args ds ss|n ds|c ds ss]; cbn [tSelection]; rewrite !height_node, hs_cons, hs_nil, height_node.
  - destruct Hs as (Ha & Hd & Hs). rewrite !hs_app. apply up_args in Ha. apply up_dirs in Hd. apply IH in Hs.
    assert (hs (tNonnil (fun l => Node (NSelections l) (map tSelection ss)) ss) <= 3 * k + 3) by (apply hs_nonnil; intros _; exact Hs). lia.
  - apply up_dirs in Hs. lia.
  - destruct Hs as (Hc & Hd & Hs). rewrite !hs_app. apply up_dirs in Hd. apply IH in Hs.
    assert (hs (tNonnil (fun l => Node (NSelections l) (map tSelection ss)) ss) <= 3 * k + 3) by (apply hs_nonnil; intros _; exact Hs).
    assert (hs (tSome tTypeCondition c) <= 2 * k + 1); [|lia]. apply hs_some. intros t ->. unfold tTypeCondition. rewrite height_node, hs_cons, hs_nil.
    apply up_type in Hc. lia.
Qed.
Lemma up_sels' k l : sels_fit k l -> hs (tNonnil tSelections l) <= 3 * k + 3.
Proof. intros H. apply hs_nonnil. intros _. apply up_sels, H. Qed.
Lemma up_default k o : option_fits (value_fits k) o -> hs (tSome tValue o) <= 3 * k.
Proof. intros H. apply hs_some. intros v ->. apply up_value in H. lia. Qed.
Lemma up_input k i : iv_fits k i -> height (tInputValue i) <= 3 * k + 4.
Proof.
  intros (Ht & Hv & Hd). unfold tInputValue. rewrite height_node, !hs_app, hs_cons, hs_nil. apply up_type in Ht. apply up_default in Hv. apply up_dirs in Hd. lia.
Qed.
Lemma up_inputs k l : Forall (iv_fits k) l -> hs (tNonnil tInputValues l) <= 3 * k + 5.
Proof.
  intros H. apply hs_nonnil. intros _. unfold tInputValues. rewrite height_node.
  assert (hs (map tInputValue l) <= 3 * k + 4); [|lia]. eapply up_map; [exact H|]. apply up_input.
Qed.
Lemma up_types k l : Forall (ty_fits k) l -> hs (tNonnil tTypes l) <= 2 * k + 1.
Proof.
  intros H. apply hs_nonnil. intros _. unfold tTypes. rewrite height_node.
  assert (hs (map tType l) <= 2 * k); [|lia]. eapply up_map; [exact H|]. intros t. apply up_type.
Qed.
Lemma up_fields k l : Forall (fd_fits k) l -> hs (tNonnil tFields l) <= 3 * k + 7.
Proof.
  intros H. apply hs_nonnil. intros _. unfold tFields. rewrite height_node.
  assert (hs (map tField l) <= 3 * k + 6); [|lia]. eapply up_map; [exact H|]. intros f (Ha & Ht & Hd). unfold tField. rewrite height_node, !hs_app, hs_cons, hs_nil.
  apply up_inputs in Ha. apply up_type in Ht. apply up_dirs in Hd. lia.
Qed.
Lemma up_enums k l : Forall (fun v => dirs_fit k (ev_dirs v)) l -> hs (tNonnil tEnumValues l) <= 3 * k + 5.
Proof.
  intros H. apply hs_nonnil. intros _. unfold tEnumValues. rewrite height_node.
  assert (hs (map tEnumValue l) <= 3 * k + 4); [|lia]. eapply up_map; [exact H|]. intros f Hd. unfold tEnumValue. rewrite height_node. apply up_dirs in Hd. lia.
Qed.
Lemma up_optypes k l : Forall (fun o => ty_fits k (ot_type o)) l -> hs (tNonnil tOpTypes l) <= 2 * k + 2.
Proof.
  intros H. apply hs_nonnil. intros _. unfold tOpTypes. rewrite height_node.
  assert (hs (map tOpType l) <= 2 * k + 1); [|lia]. eapply up_map; [exact H|]. intros f Hd. unfold tOpType. rewrite height_node, hs_cons, hs_nil. apply up_type in Hd. lia.
Qed.
Lemma up_body i b k : body_fits k b -> height (tBody i b) <= 3 * k + 10.
Proof.
  destruct b as [o|f|s|t|d|s|t]; cbn [body_fits tBody]; intros H; rewrite height_node, hs_cons, hs_nil.
  - destruct H as (Hv & Hd & Hs). unfold tOperation. rewrite height_node, hs_cons, hs_nil, height_node, !hs_app. apply up_dirs in Hd. apply up_sels' in Hs.
    assert (hs (tNonnil tVariableDefinitions (o_vars o)) <= 3 * k + 2); [|lia]. apply hs_nonnil. intros _. unfold tVariableDefinitions. rewrite height_node.
    assert (hs (map tVariableDefinition (o_vars o)) <= 3 * k + 1); [|lia]. eapply up_map; [exact Hv|]. intros v (Ht & Hx). unfold tVariableDefinition.
    rewrite height_node, hs_app, hs_cons, hs_nil. apply up_type in Ht. apply up_default in Hx. lia.
  - destruct H as (Hc & Hd & Hs). unfold tFragment, tTypeCondition. rewrite height_node, !hs_app, hs_cons, hs_nil, height_node, hs_cons, hs_nil. apply up_type in Hc. apply up_dirs in Hd. apply up_sels' in Hs. lia.
  - destruct H as (Hd & Ho). unfold tSchemaDefinition. rewrite height_node, hs_app. apply up_dirs in Hd. apply up_optypes in Ho. lia.
  - destruct H as (Hi & Hd & Hf & Hm & Hv & Hn). unfold tTypeDefinition. rewrite height_node, hs_cons, hs_nil, height_node, !hs_app.
    apply up_types in Hi. apply up_dirs in Hd. apply up_fields in Hf. apply up_types in Hm. apply up_enums in Hv. apply up_inputs in Hn. lia.
  - unfold tDirectiveDefinition. rewrite height_node. apply up_inputs in H. lia.
  - destruct H as (Hd & Ho). unfold tSchemaExtension. rewrite height_node, hs_app. apply up_dirs in Hd. apply up_optypes in Ho. lia.
  - destruct H as (Hi & Hd & Hf & Hm & Hv & Hn). unfold tTypeExtension. rewrite height_node, hs_cons, hs_nil, height_node, !hs_app.
    apply up_types in Hi. apply up_dirs in Hd. apply up_fields in Hf. apply up_types in Hm. apply up_enums in Hv. apply up_inputs in Hn. lia.
Qed.
Lemma in_numbered {A} (l : list A) i x : In (i, x) (combine (seq 0 (List.length l)) l) -> In x l.
Proof. apply in_combine_r. Qed.
Lemma up_document d k : document_fits k d -> height (tDocument d) <= 3 * k + 13.
Proof.
  intros H. unfold tDocument. rewrite height_node. assert (hs (tNonnil tDefinitions (doc_defs d)) <= 3 * k + 12); [|lia]. apply hs_nonnil. intros _.
  unfold tDefinitions. rewrite height_node. assert (hs (map tDefinition (numbered (doc_defs d))) <= 3 * k + 11); [|lia].
  apply hs_map, Forall_forall. intros [i x] Hx. apply in_numbered in Hx. unfold tDefinition. rewrite height_node, hs_cons, hs_nil. cbn [fst snd].
  pose proof (up_body i _ k (proj1 (Forall_forall _ _) H x Hx)). lia.
Qed.

(** ** ... and no lower than *)
Lemma nonnil_hs {X} (f : list X -> tree) l m : hs (tNonnil f l) <= m -> l <> [] -> height (f l) <= m.
Proof. destruct l; intros H Hn; [congruence|]. cbn [tNonnil] in H. rewrite hs_cons in H. lia. Qed.
Lemma low_nonnil {X} (f : X -> tree) (mk : list X -> node) (R : X -> Prop) l m : hs (tNonnil (fun l => Node (mk l) (map f l)) l) <= m ->
  (forall x, height (f x) < m -> R x) -> Forall R l.
Proof.
  intros H G. destruct l as [|x l]; [constructor|]. apply nonnil_hs in H; [|discriminate]. rewrite height_node in H.
  assert (H' : hs (map f (x :: l)) <= m - 1) by lia. apply hs_le in H'. rewrite Forall_map in H'. eapply Forall_impl; [|exact H']. intros y Hy. cbv beta in Hy. apply G. lia.
Qed.
Lemma low_map {X} (f : X -> tree) (R : X -> Prop) l m : hs (map f l) <= m -> (forall x, height (f x) <= m -> R x) -> Forall R l.
Proof. intros H G. apply hs_le in H. rewrite Forall_map in H. eapply Forall_impl; [|exact H]. exact G. Qed.
Lemma low_value v : forall k, height (tValue v) <= k -> value_fits k v.
Proof.
  induction v as [| | | | | | |l IH|fs IH] using value_nest; intros k H; destruct k as [|k]; try (cbn in H; lia); try exact I; cbn [tValue] in H; rewrite height_node, hs_cons, hs_nil, height_node in H; cbn [value_fits].
  - assert (H' : hs (map tValue l) <= k) by lia. apply hs_le in H'. rewrite Forall_map in H'. apply Forall_forall. intros x Hx. rewrite Forall_forall in IH, H'. apply IH; [exact Hx|]. exact (H' x Hx).
  - assert (H' : hs (map (fun f => Node (NObjectField f) [tValue (snd f)]) fs) <= k) by lia. apply hs_le in H'. rewrite Forall_map in H'. apply Forall_forall. intros x Hx.
    rewrite Forall_forall in IH, H'. apply IH; [exact Hx|]. specialize (H' x Hx). cbv beta in H'. rewrite height_node, hs_cons, hs_nil in H'. lia.
Qed.
Lemma low_args k l : hs (tNonnil tArguments l) <= k -> args_fit k l.
Proof.
  intros H. apply (low_nonnil tArgument NArguments _ l k H). intros a Ha. unfold tArgument in Ha. rewrite height_node, hs_cons, hs_nil in Ha. apply low_value. lia.
Qed.
Lemma low_dirs k l : hs (tNonnil tDirectives l) <= k -> dirs_fit k l.
Proof.
  intros H. apply (low_nonnil tDirective NDirectives _ l k H). intros a Ha. unfold tDirective in Ha. rewrite height_node in Ha. apply low_args. lia.
Qed.
Lemma low_type t : forall k, height (tType t) <= k -> ty_fits k t.
Proof.
  induction t as [n nn|t IH nn|]; intros k H; destruct k as [|k]; try (cbn in H; lia); cbn [ty_fits].
  - exact I.
  - cbn [tType] in H. rewrite height_node, hs_cons, hs_nil, height_node, hs_cons, hs_nil in H. apply IH. lia.
  - cbn in H. lia.
Qed.
Lemma low_sels k : forall j l, j <= k -> height (tSelections l) <= j -> sels_fit j l.
Proof.
  induction k as [|k IH]; intros j l Hj H.
  - unfold tSelections in H. rewrite height_node in H. lia.
  - unfold tSelections in H. rewrite height_node in H. destruct j as [|j]; [lia|]. cbn [sels_fit]. apply (low_map tSelection _ l j); [lia|].
    assert (Hss : forall ss, 2 <= j -> hs (tNonnil (fun l => Node (NSelections l) (map tSelection ss)) ss) <= j - 2 -> sels_fit j ss).
    { intros ss H2 H0. apply IH; [lia|]. destruct ss as [|s ss]; [cbn; lia|]. cbn [tNonnil] in H0. rewrite hs_cons, hs_nil in H0. unfold tSelections. lia. }
    intros s Hs. destruct s as [al n args ds ss|n ds|c ds ss]; cbn [tSelection] in Hs; rewrite height_node, hs_cons, hs_nil, height_node, ?hs_app in Hs.
    + split; [apply low_args; lia|]. split; [apply low_dirs; lia|]. apply Hss; lia.
    + apply low_dirs. lia.
    + split; [|split; [apply low_dirs; lia|apply Hss; lia]]. destruct c as [t|]; [|exact I]. cbn [option_fits tSome] in *. rewrite hs_cons in Hs. unfold tTypeCondition in Hs.
      rewrite height_node, hs_cons, hs_nil in Hs. apply low_type. lia.
Qed.
Lemma low_sels' k l : 1 <= k -> hs (tNonnil tSelections l) <= k -> sels_fit k l.
Proof. intros Hk H. apply (low_sels k); [lia|]. destruct l as [|s l]; [cbn; lia|]. cbn [tNonnil] in H. rewrite hs_cons in H. lia. Qed.
Lemma low_default k o : hs (tSome tValue o) <= k -> option_fits (value_fits k) o.
Proof. destruct o as [v|]; [|constructor]. cbn [tSome option_fits]. rewrite hs_cons, hs_nil. intros H. apply low_value. lia. Qed.
Lemma low_input k i : height (tInputValue i) <= k -> iv_fits k i.
Proof.
  unfold tInputValue. rewrite height_node, !hs_app, hs_cons, hs_nil. intros H. split; [apply low_type; lia|]. split; [apply low_default; lia|apply low_dirs; lia].
Qed.
Lemma low_inputs k l : hs (tNonnil tInputValues l) <= k -> Forall (iv_fits k) l.
Proof. intros H. apply (low_nonnil tInputValue NInputValueDefinitions _ l k H). intros x Hx. apply low_input. lia. Qed.
Lemma low_types k l : hs (tNonnil tTypes l) <= k -> Forall (ty_fits k) l.
Proof. intros H. apply (low_nonnil tType NTypes _ l k H). intros x Hx. apply low_type. lia. Qed.
Lemma low_fields k l : hs (tNonnil tFields l) <= k -> Forall (fd_fits k) l.
Proof.
  intros H. apply (low_nonnil tField NFieldDefinitions _ l k H). intros x Hx. unfold tField in Hx. rewrite height_node, !hs_app, hs_cons, hs_nil in Hx.
  split; [apply low_inputs; lia|]. split; [apply low_type; lia|apply low_dirs; lia].
Qed.
Lemma low_enums k l : hs (tNonnil tEnumValues l) <= k -> Forall (fun v => dirs_fit k (ev_dirs v)) l.
Proof. intros H. apply (low_nonnil tEnumValue NEnumValueDefinitions _ l k H). intros x Hx. unfold tEnumValue in Hx. rewrite height_node in Hx. apply low_dirs. lia. Qed.
Lemma low_optypes k l : hs (tNonnil tOpTypes l) <= k -> Forall (fun o => ty_fits k (ot_type o)) l.
Proof.
  intros H. apply (low_nonnil tOpType NOperationTypeDefinitions _ l k H). intros x Hx. unfold tOpType in Hx. rewrite height_node, hs_cons, hs_nil in Hx. apply low_type. lia.
Qed.
Lemma low_body i b k : height (tBody i b) <= k -> body_fits k b.
Proof.
  destruct b as [o|f|s|t|d|s|t]; cbn [body_fits tBody]; rewrite height_node, hs_cons, hs_nil; intros H.
  - unfold tOperation in H. rewrite height_node, hs_cons, hs_nil, height_node, !hs_app in H. split; [|split; [apply low_dirs; lia|apply low_sels'; lia]].
    apply (low_nonnil tVariableDefinition NVariableDefinitions _ (o_vars o) k); [change (hs (tNonnil tVariableDefinitions (o_vars o)) <= k); lia|].
    intros v Hv. unfold tVariableDefinition in Hv. rewrite height_node, hs_app, hs_cons, hs_nil in Hv. split; [apply low_type; lia|apply low_default; lia].
  - unfold tFragment, tTypeCondition in H. rewrite height_node, !hs_app, hs_cons, hs_nil, height_node, hs_cons, hs_nil in H.
    split; [apply low_type; lia|]. split; [apply low_dirs; lia|apply low_sels'; lia].
  - unfold tSchemaDefinition in H. rewrite height_node, hs_app in H. split; [apply low_dirs; lia|apply low_optypes; lia].
  - unfold tTypeDefinition in H. rewrite height_node, hs_cons, hs_nil, height_node, !hs_app in H.
    split; [apply low_types; lia|]. split; [apply low_dirs; lia|]. split; [apply low_fields; lia|]. split; [apply low_types; lia|]. split; [apply low_enums; lia|apply low_inputs; lia].
  - unfold tDirectiveDefinition in H. rewrite height_node in H. apply low_inputs. lia.
  - unfold tSchemaExtension in H. rewrite height_node, hs_app in H. split; [apply low_dirs; lia|apply low_optypes; lia].
  - unfold tTypeExtension in H. rewrite height_node, hs_cons, hs_nil, height_node, !hs_app in H.
    split; [apply low_types; lia|]. split; [apply low_dirs; lia|]. split; [apply low_fields; lia|]. split; [apply low_types; lia|]. split; [apply low_enums; lia|apply low_inputs; lia].
Qed.
Lemma numbered_in (x : definition) l : In x l -> exists i, In (i, x) (numbered l).
Proof.
  unfold numbered. intros H. generalize 0. induction l as [|y l IH]; intros n; [destruct H|]. cbn [List.length seq combine]. destruct H as [->|H].
  - exists n. left. reflexivity.
  - destruct (IH H (S n)) as (i & Hi). exists i. right. exact Hi.
Qed.
Lemma low_document d k : height (tDocument d) <= k -> document_fits k d.
Proof.
  intros H. unfold tDocument in H. rewrite height_node in H. apply Forall_forall. intros x Hx.
  assert (Hn : doc_defs d <> []) by (intros E; rewrite E in Hx; destruct Hx).
  assert (H' : hs (tNonnil tDefinitions (doc_defs d)) <= k - 1) by lia. apply nonnil_hs in H'; [|exact Hn].
  unfold tDefinitions in H'. rewrite height_node in H'. assert (H2 : hs (map tDefinition (numbered (doc_defs d))) <= k - 2) by lia.
  apply hs_le in H2. rewrite Forall_map in H2. destruct (numbered_in x _ Hx) as (i & Hi). pose proof (proj1 (Forall_forall _ _) H2 _ Hi) as H3. cbv beta in H3.
  unfold tDefinition in H3. rewrite height_node, hs_cons, hs_nil in H3. cbn [fst snd] in H3. apply (low_body i). lia.
Qed.
