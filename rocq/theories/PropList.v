(** * PropList: C17, the linked lists of packages ast and graphql behave like sequences.
    Model: LinkedList.v.  [rep h p ads xs]: in the heap [h] the pointer [p] is a nil-terminated chain of the cells [ads]
    with data [xs]. *)
From Verif Require Import Base LinkedList.

Section P.
Context {A : Type} (zero : A).
Notation heap := (@heap A).

(** ** One operation at a time.  Each theorem also says which cells may change. *)
Theorem C17_add : forall (h : heap) p ads xs x, rep h p ads xs ->
  exists h' q, add h p x = Done (h', q) /\ rep h' q (List.length h :: ads) (x :: xs) /\
    forall p' ads' ys, rep h p' ads' ys -> rep h' p' ads' ys.
Proof.
  intros h p ads xs x H. rewrite (add_ok h p ads xs x H). eexists _, _. split; [reflexivity|]. split; [apply add_rep; exact H|].
  intros. apply rep_app. assumption.
Qed.
Theorem C17_len : forall (h : heap) p ads xs, rep h p ads xs -> len h p = Done (Z.of_nat (List.length xs)).
Proof. exact len_ok. Qed.
(** ForEach calls its function on every element once, in order, with its index. *)
Theorem C17_forEach : forall (h : heap) p ads xs, rep h p ads xs -> forall n, List.length h <= n ->
  forEach n h p = Done (combine xs (map Z.of_nat (seq 0 (List.length xs)))).
Proof.
  intros h p ads xs H n Hn. rewrite (forEach_ok h p ads xs n H Hn). f_equal. clear.
  change 0%Z with (Z.of_nat 0). generalize 0 at 1 2. induction xs as [|x xs IH]; intros k; [reflexivity|]. cbn. f_equal. rewrite <- IH. f_equal. lia.
Qed.
Theorem C17_reverse : forall (h : heap) p ads xs n, rep h p ads xs -> List.length h < n ->
  exists h' q, reverse n h p = Done (h', q) /\ rep h' q (rev ads) (rev xs) /\
    forall p' ads' ys, rep h p' ads' ys -> (forall a, In a ads -> ~ In a ads') -> rep h' p' ads' ys.
Proof.
  intros h p ads xs n H Hn. destruct (reverse_ok h p ads xs n H Hn) as (h' & H1 & H2 & _ & H3). eexists _, _. split; [exact H1|]. split; [exact H2|].
  intros p' ads' ys Hr Hd. eapply rep_frame; [|exact Hr]. intros a Ha. apply H3. intros Hi. exact (Hd a Hi Ha).
Qed.
(** Join of a non-empty list: concatenation, sharing the cells of the second list. *)
Theorem C17_join : forall (h : heap) p ads xs q qads ys n, rep h p ads xs -> rep h q qads ys ->
  (forall a, In a ads -> ~ In a qads) -> xs <> [] -> List.length h < n ->
  exists h', join n h p q = Done h' /\ rep h' p (ads ++ qads) (xs ++ ys) /\ rep h' q qads ys /\
    forall p' ads' zs, rep h p' ads' zs -> (forall a, In a ads -> ~ In a ads') -> rep h' p' ads' zs.
Proof.
  intros h p ads xs q qads ys n H Hq Hd Hx Hn. destruct (join_ok h p ads xs q qads ys n H Hq Hd Hx Hn) as (h' & H1 & H2 & H3 & _ & H4).
  exists h'. split; [exact H1|]. split; [exact H2|]. split; [exact H3|].
  intros p' ads' zs Hr Hd'. eapply rep_frame; [|exact Hr]. intros a Ha. apply H4. intros Hi. exact (Hd' a Hi Ha).
Qed.
(** Insert leaves [pos] elements (clamped to the list) after the new one. *)
Theorem C17_insert : forall (h : heap) p ads xs x pos n, rep h p ads xs -> S (List.length h) < n ->
  exists h' q ads' before after, insert n h p x pos = Done (h', q) /\ rep h' q ads' (before ++ x :: after) /\ xs = before ++ after /\
    Z.of_nat (List.length after) = Z.max 0 (Z.min pos (Z.of_nat (List.length xs))) /\
    forall p' bs zs, rep h p' bs zs -> (forall a, In a ads -> ~ In a bs) -> rep h' p' bs zs.
Proof.
  intros h p ads xs x pos n H Hn. destruct (insert_ok h p ads xs x pos n H Hn) as (h' & q & ads' & H1 & H2 & H3 & _ & _).
  unfold insert_at in H2. set (k := if Z.leb (Z.of_nat (List.length xs)) pos then 0 else List.length xs - Z.to_nat pos).
  exists h', q, ads', (firstn k xs), (skipn k xs). split; [exact H1|]. split; [|split; [symmetry; apply firstn_skipn|split]].
  - unfold k. destruct (Z.leb (Z.of_nat (List.length xs)) pos); exact H2.
  - rewrite skipn_length. unfold k. destruct (Z.leb_spec (Z.of_nat (List.length xs)) pos); lia.
  - intros p' bs zs Hr Hd. eapply rep_frame; [|exact Hr]. intros a Ha. apply H3; [|intros Hi; exact (Hd a Hi Ha)].
    pose proof (rep_bound _ _ _ _ Hr) as Hb. rewrite Forall_forall in Hb. auto.
Qed.
(** A fresh generator yields the elements in order with their indices, then (zero value, -1) for ever. *)
Theorem C17_generator : forall (h : heap) p ads xs k, rep h p ads xs -> exists g g',
  generator h p = Done g /\
  drain zero k h g = Done (firstn k (combine xs (map Z.of_nat (seq 0 (List.length xs)))) ++ repeat (zero, (-1)%Z) (k - List.length xs), g').
Proof.
  intros h p ads xs k H. pose proof (C17_forEach h p ads xs H _ (le_n _)) as He. rewrite (forEach_ok h p ads xs _ H (le_n _)) in He.
  injection He as <-. unfold generator. rewrite (len_ok _ _ _ _ H). cbn [obind].
  destruct (drain_ok zero h None (Z.of_nat (List.length xs)) p ads xs H 0 k) as (g' & Hg & _). eauto.
Qed.
(** XFromSlice. *)
Theorem C17_fromSlice : forall (h : heap) l n, List.length h + List.length l < n ->
  exists h' q ads, from_slice n h l = Done (h', q) /\ rep h' q ads l /\
    forall p' bs zs, rep h p' bs zs -> rep h' p' bs zs.
Proof.
  intros h l n Hn. destruct (from_slice_ok h l n Hn) as (h' & q & ads & H1 & H2 & H3 & _). exists h', q, ads. split; [exact H1|]. split; [exact H2|].
  intros p' bs zs Hr. eapply rep_frame; [|exact Hr]. intros a Ha. apply H3.
  pose proof (rep_bound _ _ _ _ Hr) as Hb. rewrite Forall_forall in Hb. auto.
Qed.

(** ** Every sequence of operations.  Variables hold lists; [Join v w] gives [w]'s cells to [v], so [w] must not be used
    afterwards (until it is assigned again).  Reading operations produce observations. *)
Inductive op :=
| ONil (v : nat)                    (* v = nil *)
| OSlice (v : nat) (l : list A)     (* v = XFromSlice(l) *)
| OAdd (v : nat) (x : A)            (* v = v.Add(x) *)
| OReverse (v : nat)                (* v = v.Reverse() *)
| OInsert (v : nat) (x : A) (pos : Z) (* v = v.Insert(x, pos) *)
| OJoin (v w : nat)                 (* v.Join(w) *)
| OLen (v : nat)
| OForEach (v : nat)
| OGen (v : nat) (k : nat).         (* g := v.Generator(); k calls of g.Next() *)
Inductive obs := BLen (n : Z) | BItems (l : list (A * Z)).

(** The code: *)
Definition set {T} (e : nat -> T) (v : nat) (x : T) : nat -> T := fun w => if Nat.eqb w v then x else e w.
Definition fuel (h : heap) : nat := List.length h + 2.
Definition run1 (o : op) (h : heap) (e : nat -> ptr) : out (list obs * heap * (nat -> ptr)) :=
  let assign v (m : out (heap * ptr)) := obind m (fun '(h, p) => Done ([], h, set e v p)) in
  match o with
  | ONil v => Done ([], h, set e v None)
  | OSlice v l => assign v (from_slice (List.length l + fuel h) h l)
  | OAdd v x => assign v (add h (e v) x)
  | OReverse v => assign v (reverse (fuel h) h (e v))
  | OInsert v x pos => assign v (insert (fuel h) h (e v) x pos)
  | OJoin v w => obind (join (fuel h) h (e v) (e w)) (fun h => Done ([], h, e))
  | OLen v => obind (len h (e v)) (fun n => Done ([BLen n], h, e))
  | OForEach v => obind (forEach (fuel h) h (e v)) (fun l => Done ([BItems l], h, e))
  | OGen v k => obind (generator h (e v)) (fun g => obind (drain zero k h g) (fun '(l, _) => Done ([BItems l], h, e)))
  end.
Fixpoint run (os : list op) (h : heap) (e : nat -> ptr) : out (list obs * heap * (nat -> ptr)) :=
  match os with
  | [] => Done ([], h, e)
  | o :: os => obind (run1 o h e) (fun '(b, h, e) => obind (run os h e) (fun '(bs, h, e) => Done (b ++ bs, h, e)))
  end.

(** The specification, on sequences; [None] is a variable whose cells were given away. *)
Definition spec1 (o : op) (s : nat -> option (list A)) (b : list obs) (s' : nat -> option (list A)) : Prop :=
  let numbered l := combine l (map Z.of_nat (seq 0 (List.length l))) in
  match o with
  | ONil v => b = [] /\ s' = set s v (Some [])
  | OSlice v l => b = [] /\ s' = set s v (Some l)
  | OAdd v x => exists l, s v = Some l /\ b = [] /\ s' = set s v (Some (x :: l))
  | OReverse v => exists l, s v = Some l /\ b = [] /\ s' = set s v (Some (rev l))
  | OInsert v x pos => exists l1 l2, s v = Some (l1 ++ l2) /\ b = [] /\
      Z.of_nat (List.length l2) = Z.max 0 (Z.min pos (Z.of_nat (List.length (l1 ++ l2)))) /\ s' = set s v (Some (l1 ++ x :: l2))
  | OJoin v w => exists l m, v <> w /\ s v = Some l /\ s w = Some m /\ b = [] /\
      match l with [] => s' = s | _ => s' = set (set s w None) v (Some (l ++ m)) end
  | OLen v => exists l, s v = Some l /\ b = [BLen (Z.of_nat (List.length l))] /\ s' = s
  | OForEach v => exists l, s v = Some l /\ b = [BItems (numbered l)] /\ s' = s
  | OGen v k => exists l, s v = Some l /\ s' = s /\
      b = [BItems (firstn k (numbered l) ++ repeat (zero, (-1)%Z) (k - List.length l))]
  end.
Inductive specs : list op -> (nat -> option (list A)) -> list obs -> (nat -> option (list A)) -> Prop :=
| specs_nil s : specs [] s [] s
| specs_cons o os s b s1 bs s2 : spec1 o s b s1 -> specs os s1 bs s2 -> specs (o :: os) s (b ++ bs) s2.

(** Owned variables hold their list, in cells of their own. *)
Definition holds (h : heap) (e : nat -> ptr) (s : nat -> option (list A)) : Prop :=
  exists cells : nat -> list nat,
    (forall v l, s v = Some l -> rep h (e v) (cells v) l) /\
    (forall v w a, v <> w -> s v <> None -> s w <> None -> In a (cells v) -> ~ In a (cells w)).

Lemma set_eq {T} (e : nat -> T) v x : set e v x v = x. Proof. unfold set. rewrite Nat.eqb_refl. reflexivity. Qed.
Lemma set_ne {T} (e : nat -> T) v x w : w <> v -> set e v x w = e w.
Proof. intros H. unfold set. destruct (Nat.eqb_spec w v); congruence. Qed.

(** assigning to [v] a list stored in cells no other variable uses *)
Lemma holds_assign h h' e s v p ads l (cells : nat -> list nat) :
  (forall v l, s v = Some l -> rep h (e v) (cells v) l) ->
  (forall v w a, v <> w -> s v <> None -> s w <> None -> In a (cells v) -> ~ In a (cells w)) ->
  rep h' p ads l ->
  (forall w m, w <> v -> s w = Some m -> rep h' (e w) (cells w) m /\ forall a, In a ads -> ~ In a (cells w)) ->
  holds h' (set e v p) (set s v (Some l)).
Proof.
  intros Hr Hd Hp Hw. exists (set cells v ads). split.
  - intros w m Hm. destruct (Nat.eq_dec w v) as [->|Hn].
    + rewrite !set_eq in *. injection Hm as <-. exact Hp.
    + rewrite !set_ne in * by exact Hn. apply Hw; assumption.
  - intros x y a Hxy Hx Hy Ha. destruct (Nat.eq_dec x v) as [->|Hx']; destruct (Nat.eq_dec y v) as [->|Hy'].
    + congruence.
    + rewrite set_eq in Ha. rewrite !set_ne in * by assumption. destruct (s y) as [m|] eqn:E; [|congruence]. apply (Hw y m); assumption.
    + rewrite set_eq. rewrite !set_ne in * by assumption. destruct (s x) as [m|] eqn:E; [|congruence]. intros Hi. exact (proj2 (Hw x m Hx' E) a Hi Ha).
    + rewrite !set_ne in * by assumption. apply (Hd x y); assumption.
Qed.

Theorem C17_sequences_step : forall o s b s', spec1 o s b s' -> forall h e, holds h e s ->
  exists h' e', run1 o h e = Done (b, h', e') /\ holds h' e' s'.
Proof.
  intros o s b s' Hs h e Hh. pose proof Hh as (cells & Hr & Hd). destruct o; cbn in Hs |- *.
  - destruct Hs as [-> ->]. eexists _, _. split; [reflexivity|]. eapply holds_assign; [exact Hr|exact Hd|constructor|]. intros w m Hw Hm. split; [auto|intros a []].
  - destruct Hs as [-> ->]. destruct (from_slice_ok h l (List.length l + fuel h)) as (h' & q & ads & H1 & H2 & H3 & H4); [unfold fuel; lia|].
    rewrite H1. cbn. eexists _, _. split; [reflexivity|]. eapply holds_assign; [exact Hr|exact Hd|exact H2|]. intros w m Hw Hm.
    pose proof (rep_bound _ _ _ _ (Hr w m Hm)) as Hb. rewrite Forall_forall in Hb. split.
    + eapply rep_frame; [|exact (Hr w m Hm)]. intros a Ha. apply H3. auto.
    + intros a Ha Hi. specialize (H4 a Ha). specialize (Hb a Hi). lia.
  - destruct Hs as (l & Hv & -> & ->). pose proof (Hr v l Hv) as Hrv. rewrite (add_ok _ _ _ _ x Hrv). cbn. eexists _, _. split; [reflexivity|].
    eapply holds_assign; [exact Hr|exact Hd|apply add_rep; exact Hrv|]. intros w m Hw Hm. pose proof (Hr w m Hm) as Hrw. split; [apply rep_app; exact Hrw|].
    intros a [<-|Ha] Hi.
    + pose proof (rep_bound _ _ _ _ Hrw) as Hb. rewrite Forall_forall in Hb. specialize (Hb _ Hi). lia.
    + refine (Hd v w a _ _ _ Ha Hi); congruence.
  - destruct Hs as (l & Hv & -> & ->). destruct (reverse_ok h (e v) (cells v) l (fuel h) (Hr v l Hv)) as (h' & H1 & H2 & H3 & H4); [unfold fuel; lia|].
    rewrite H1. cbn. eexists _, _. split; [reflexivity|]. eapply holds_assign; [exact Hr|exact Hd|exact H2|]. intros w m Hw Hm. split.
    + eapply rep_frame; [|exact (Hr w m Hm)]. intros a Ha. apply H4. intros Hi. refine (Hd v w a _ _ _ Hi Ha); congruence.
    + intros a Ha Hi. apply in_rev in Ha. refine (Hd v w a _ _ _ Ha Hi); congruence.
  - destruct Hs as (l1 & l2 & Hv & -> & Hl & ->). destruct (insert_ok h (e v) (cells v) (l1 ++ l2) x pos (fuel h) (Hr v _ Hv)) as (h' & q & ads & H1 & H2 & H3 & H4 & _); [unfold fuel; lia|].
    assert (Hi : insert_at (l1 ++ l2) x pos = l1 ++ x :: l2).
    { unfold insert_at. rewrite app_length in *. destruct (Z.leb_spec (Z.of_nat (List.length l1 + List.length l2)) pos) as [H|H].
      - assert (l1 = []) as -> by (destruct l1; [reflexivity|cbn [List.length] in *; lia]). reflexivity.
      - replace (List.length l1 + List.length l2 - Z.to_nat pos) with (List.length l1) by lia.
        rewrite firstn_app, Nat.sub_diag, firstn_all, skipn_app, skipn_all, Nat.sub_diag. cbn. rewrite app_nil_r. reflexivity. }
    rewrite Hi in H2. rewrite H1. cbn. eexists _, _. split; [reflexivity|]. eapply holds_assign; [exact Hr|exact Hd|exact H2|]. intros w m Hw Hm.
    pose proof (rep_bound _ _ _ _ (Hr w m Hm)) as Hb. rewrite Forall_forall in Hb. split.
    + eapply rep_frame; [|exact (Hr w m Hm)]. intros a Ha. apply H3; [auto|]. intros Hx. refine (Hd v w a _ _ _ Hx Ha); congruence.
    + intros a Ha Hx. destruct (H4 a Ha) as [Hy| ->]; [refine (Hd v w a _ _ _ Hy Hx); congruence|]. specialize (Hb _ Hx). lia.
  - destruct Hs as (l & m & Hvw & Hv & Hw & -> & Hs). pose proof (Hr v l Hv) as Hrv. pose proof (Hr w m Hw) as Hrw.
    assert (Hdis : forall a, In a (cells v) -> ~ In a (cells w)) by (intros a; apply Hd; congruence).
    destruct l as [|x l].
    + inversion Hrv as [Hp|]. cbn. subst s'. exists h, e. split; [reflexivity|exact Hh].
    + destruct (join_ok h (e v) (cells v) (x :: l) (e w) (cells w) m (fuel h) Hrv Hrw Hdis ltac:(discriminate)) as (h' & H1 & H2 & H3 & H4 & H5); [unfold fuel; lia|].
      rewrite H1. cbn. subst s'. exists h', e. split; [reflexivity|].
      exists (set cells v (cells v ++ cells w)). split.
      * intros y z Hz. destruct (Nat.eq_dec y v) as [->|Hy].
        -- rewrite set_eq in Hz. rewrite set_eq. injection Hz as <-. exact H2.
        -- rewrite set_ne in Hz by exact Hy. rewrite set_ne by exact Hy. destruct (Nat.eq_dec y w) as [->|Hyw]; [rewrite set_eq in Hz; discriminate|].
           rewrite set_ne in Hz by exact Hyw. eapply rep_frame; [|exact (Hr y z Hz)]. intros a Ha. apply H5. intros Hi. refine (Hd v y a _ _ _ Hi Ha); congruence.
      * intros y z a Hyz Hy Hz Ha.
        assert (Hne : forall u, u <> v -> set (set s w None) v (Some ((x :: l) ++ m)) u <> None -> u <> w /\ s u <> None).
        { intros u Hu Hx. rewrite set_ne in Hx by exact Hu. destruct (Nat.eq_dec u w) as [->|Huw]; [rewrite set_eq in Hx; congruence|].
          rewrite set_ne in Hx by exact Huw. auto. }
        destruct (Nat.eq_dec y v) as [->|Hy']; destruct (Nat.eq_dec z v) as [->|Hz']; [congruence| | |].
        -- rewrite set_eq in Ha. rewrite set_ne by exact Hz'. destruct (Hne z Hz' Hz) as [Hzw Hzs]. apply in_app_iff in Ha.
           destruct Ha as [Ha|Ha]; [apply (Hd v z)|apply (Hd w z)]; congruence.
        -- rewrite set_eq. rewrite set_ne in Ha by exact Hy'. destruct (Hne y Hy' Hy) as [Hyw Hys]. rewrite in_app_iff.
           intros [Hi|Hi]; [refine (Hd y v a _ _ _ Ha Hi)|refine (Hd y w a _ _ _ Ha Hi)]; congruence.
        -- rewrite set_ne in Ha by assumption. rewrite set_ne by assumption. apply (Hd y z); [exact Hyz|apply Hne; assumption|apply Hne; assumption|exact Ha].
  - destruct Hs as (l & Hv & -> & ->). rewrite (len_ok _ _ _ _ (Hr v l Hv)). cbn. exists h, e. auto.
  - destruct Hs as (l & Hv & -> & ->). rewrite (C17_forEach _ _ _ _ (Hr v l Hv)) by (unfold fuel; lia). cbn. exists h, e. auto.
  - destruct Hs as (l & Hv & -> & ->). destruct (C17_generator _ _ _ _ k (Hr v l Hv)) as (g & g' & -> & H2). cbn [obind]. rewrite H2. cbn. exists h, e. auto.
Qed.

(** Whatever the program, the code performs it without a nil dereference and without an endless loop, makes the
    observations of the specification, and ends with the lists of the specification. *)
Theorem C17_sequences : forall os s bs s', specs os s bs s' -> forall h e, holds h e s ->
  exists h' e', run os h e = Done (bs, h', e') /\ holds h' e' s'.
Proof.
  induction 1 as [s|o os s b s1 bs s2 H1 H2 IH]; intros h e Hh; [exists h, e; auto|].
  destruct (C17_sequences_step _ _ _ _ H1 h e Hh) as (h1 & e1 & R1 & Hh1). destruct (IH h1 e1 Hh1) as (h2 & e2 & R2 & Hh2).
  exists h2, e2. cbn [run]. rewrite R1. cbn [obind]. rewrite R2. cbn [obind]. auto.
Qed.
(** Initially every variable is nil. *)
Theorem C17_initially : holds [] (fun _ => None) (fun _ => Some []).
Proof. exists (fun _ => []). split; [intros v l E; injection E as <-; constructor|intros v w a _ _ _ []]. Qed.

(** ** What fails. *)
(** The receiver of Join must not be nil: nothing is appended to an empty list. *)
Theorem C17_join_on_nil_refuted : forall n (h : heap) q, join n h None q = Done h.
Proof. reflexivity. Qed.
(** A generator that has been Reset yields nothing, whatever the list. *)
Theorem C17_generator_reset_refuted : forall (h : heap) p ads xs k, rep h p ads xs -> forall g l g',
  generator h p = Done g -> drain zero k h g = Done (l, g') ->
  forall m, exists g'', drain zero m h (reset g') = Done (repeat (zero, (-1)%Z) m, g'').
Proof.
  intros h p ads xs k H g l g' Hg Hdr m. unfold generator in Hg. rewrite (len_ok _ _ _ _ H) in Hg. cbn in Hg. injection Hg as <-.
  destruct (drain_ok zero h None (Z.of_nat (List.length xs)) p ads xs H 0 k) as (g2 & Hg2 & Ho & _). rewrite Hg2 in Hdr. injection Hdr as _ ->.
  unfold reset. rewrite Ho. destruct (drain_ok zero h None (glength g') None [] [] (rep_nil h) 0 m) as (g3 & Hg3 & _).
  exists g3. cbn [List.length indexed] in Hg3. rewrite firstn_nil, Nat.sub_0_r in Hg3. exact Hg3.
Qed.
End P.
Print Assumptions C17_sequences. Print Assumptions C17_generator_reset_refuted. Print Assumptions C17_insert.

(** Joining a list to itself makes a cycle: ForEach never ends. *)
Theorem C17_self_join_refuted : exists h p h', from_slice 9 [] [1; 2] = Done (h, p) /\ join 9 h p p = Done h' /\
  forall n, forEach n h' p = Diverge.
Proof.
  eexists _, _, _. split; [vm_compute; reflexivity|]. split; [vm_compute; reflexivity|]. intros n. cbn [forEach].
  set (h := [_; _]). assert (H : forall n i, forEach_loop n h (Some 1) i = Diverge /\ forEach_loop n h (Some 0) i = Diverge).
  { clear n. induction n as [|n IH]; intros i; [auto|]. cbn. split; rewrite (proj1 (IH _)) || rewrite (proj2 (IH _)); reflexivity. }
  apply H || apply (proj1 (H n 0%Z)) || apply (proj2 (H n 0%Z)).
Qed.
Print Assumptions C17_self_join_refuted.

(** The hypotheses are met: a run with sharing, insertion in the middle and a join. *)
Example C17_nonvacuous : exists bs s', specs 0
   [OSlice 0 [1; 2; 3]; OAdd 0 9; OSlice 1 [7; 8]; OInsert 1 5 1; OJoin 0 1; OReverse 0; OForEach 0; OLen 0; OGen 0 2] (fun _ => Some []) bs s' /\
  bs = [BItems [(8, 0%Z); (5, 1%Z); (7, 2%Z); (3, 3%Z); (2, 4%Z); (1, 5%Z); (9, 6%Z)]; BLen 7; BItems [(8, 0%Z); (5, 1%Z)]].
Proof.
  eexists _, _. split; [|reflexivity].
  change [BItems [(8, 0%Z); (5, 1%Z); (7, 2%Z); (3, 3%Z); (2, 4%Z); (1, 5%Z); (9, 6%Z)]; BLen 7; BItems [(8, 0%Z); (5, 1%Z)]] with
   ([] ++ [] ++ [] ++ [] ++ [] ++ [] ++ [BItems [(8, 0%Z); (5, 1%Z); (7, 2%Z); (3, 3%Z); (2, 4%Z); (1, 5%Z); (9, 6%Z)]] ++ [BLen 7] ++ [BItems [(8, 0%Z); (5, 1%Z)]] ++ ([] : list (@obs nat))).
  repeat (eapply specs_cons; [cbn|]); [..|apply specs_nil].
  - split; reflexivity.
  - eexists. split; [reflexivity|]. split; reflexivity.
  - split; reflexivity.
  - exists [7], [8]. split; [reflexivity|]. split; [reflexivity|]. split; reflexivity.
  - eexists _, _. split; [discriminate|]. split; [reflexivity|]. split; [reflexivity|]. split; [reflexivity|]. cbn. reflexivity.
  - eexists. split; [reflexivity|]. split; reflexivity.
  - eexists. split; [reflexivity|]. split; reflexivity.
  - eexists. split; [reflexivity|]. split; reflexivity.
  - eexists. split; [reflexivity|]. split; reflexivity.
Qed.
