(** * LinkedList: heap model of the generated linked lists — ast/lists.go (and graphql/lists.go, which is generated from
    the same template).  Line numbers are those of [Arguments] (ast/lists.go:5-171); the other list types repeat them.

    A pointer is [option nat] (nil or an address), the heap a list of cells (the address is the index), allocation appends a
    cell.  Loops take fuel; [Diverge] is exhausted fuel, [NilPtr] a nil (or dangling) dereference. *)
From Verif Require Import Base.

Section Lists.
Context {A : Type}.
(** lists.go:6-10. *)
Record node := mkN { data : A; nxt : option nat; npos : Z }.
Definition heap := list node.
Definition ptr := option nat.

Inductive out (R : Type) := Done (r : R) | NilPtr | Diverge.
Arguments Done {R} _. Arguments NilPtr {R}. Arguments Diverge {R}.
Definition obind {R S} (m : out R) (k : R -> out S) : out S :=
  match m with Done r => k r | NilPtr => NilPtr | Diverge => Diverge end.

Fixpoint upd (h : heap) (a : nat) (n : node) : heap :=
  match h, a with
  | [], _ => []
  | _ :: h, O => n :: h
  | x :: h, S a => x :: upd h a n
  end.
Definition deref (h : heap) (p : ptr) : out (nat * node) :=
  match p with
  | None => NilPtr
  | Some a => match nth_error h a with Some n => Done (a, n) | None => NilPtr end
  end.

(** lists.go:138-143 [Len]. *)
Definition len (h : heap) (p : ptr) : out Z :=
  match p with None => Done 0%Z | Some _ => obind (deref h p) (fun '(_, n) => Done (npos n + 1)%Z) end.

(** lists.go:13-25 [Add]. *)
Definition add (h : heap) (p : ptr) (x : A) : out (heap * ptr) :=
  obind (match p with None => Done 0%Z | Some _ => obind (deref h p) (fun '(_, n) => Done (npos n + 1)%Z) end)
    (fun pos => Done (h ++ [mkN x p pos], Some (List.length h))).

(** lists.go:28-46 [ForEach]: the calls [fn(data, iter)], in order. *)
Fixpoint forEach_loop (fuel : nat) (h : heap) (p : ptr) (iter : Z) : out (list (A * Z)) :=
  match fuel with
  | O => Diverge
  | S f => obind (deref h p) (fun '(_, n) =>
      match nxt n with
      | None => Done [(data n, iter)]
      | Some _ => obind (forEach_loop f h (nxt n) (iter + 1)) (fun l => Done ((data n, iter) :: l))
      end)
  end.
Definition forEach (fuel : nat) (h : heap) (p : ptr) : out (list (A * Z)) :=
  match p with None => Done [] | Some _ => forEach_loop fuel h p 0 end.

(** lists.go:50-87 the generator; [Generator] does not set [original] (lists.go:83-87). *)
Record gen := mkG { original : ptr; current : ptr; iter : Z; glength : Z }.
Definition generator (h : heap) (p : ptr) : out gen :=
  obind (len h p) (fun n => Done (mkG None p 0 n)).
(** [zero] is Go's zero value of the element type, returned by an exhausted generator. *)
Definition next (zero : A) (h : heap) (g : gen) : out (A * Z * gen) :=
  match current g with
  | None => Done (zero, (-1)%Z, g)
  | Some _ => obind (deref h (current g)) (fun '(_, n) =>
      Done (data n, iter g, mkG (original g) (nxt n) (iter g + 1) (glength g)))
  end.
Definition reset (g : gen) : gen := mkG (original g) (original g) 0 (glength g).

(** lists.go:117-135 [Join]: the loop renumbers the receiver and finds its last node. *)
Fixpoint join_loop (fuel : nat) (h : heap) (p : ptr) (pos : Z) (last : nat) : out (heap * nat) :=
  match fuel with
  | O => Diverge
  | S f =>
      match p with
      | None => Done (h, last)
      | Some a => obind (deref h p) (fun '(_, n) =>
          join_loop f (upd h a (mkN (data n) (nxt n) pos)) (nxt n) (pos - 1) a)
      end
  end.
Definition join (fuel : nat) (h : heap) (p q : ptr) : out heap :=
  match p with
  | None => Done h
  | Some a =>
      obind (len h p) (fun lp => obind (len h q) (fun lq =>
      obind (join_loop fuel h p (lp + lq - 1) a) (fun '(h, last) =>
      obind (deref h (Some last)) (fun '(_, n) => Done (upd h last (mkN (data n) q (npos n)))))))
  end.

(** lists.go:92-114 [Insert]. *)
Fixpoint seek (fuel : nat) (h : heap) (p : ptr) (pos : Z) : out nat :=
  match fuel with
  | O => Diverge
  | S f => obind (deref h p) (fun '(a, n) => if Z.eqb (npos n) pos then Done a else seek f h (nxt n) pos)
  end.
Definition insert (fuel : nat) (h : heap) (p : ptr) (x : A) (pos : Z) : out (heap * ptr) :=
  obind (len h p) (fun lp =>
  match p with
  | Some a =>
      if Z.leb lp pos then add h p x else
      let pos := if Z.ltb pos 0 then 0%Z else pos in
      obind (seek fuel h p pos) (fun mid =>
      obind (deref h (Some mid)) (fun '(_, m) =>
      let bot := nxt m in
      let h := upd h mid (mkN (data m) None (npos m)) in
      obind (deref h p) (fun '(_, n) =>
      let h := upd h a (mkN (data n) (nxt n) (npos n - npos m)) in
      obind (add h bot x) (fun '(h, bot) =>
      obind (join fuel h p bot) (fun h => Done (h, p))))))
  | None => add h p x
  end).

(** lists.go:148-166 [Reverse]. *)
Fixpoint reverse_loop (fuel : nat) (h : heap) (cur prev : ptr) (pos : Z) : out (heap * ptr) :=
  match fuel with
  | O => Diverge
  | S f =>
      match cur with
      | None => Done (h, prev)
      | Some a => obind (deref h cur) (fun '(_, n) =>
          reverse_loop f (upd h a (mkN (data n) prev pos)) (nxt n) cur (pos + 1))
      end
  end.
Definition reverse (fuel : nat) (h : heap) (p : ptr) : out (heap * ptr) := reverse_loop fuel h p None 0.

(** lists.go:168-174 [ArgumentsFromSlice]. *)
Fixpoint add_all (h : heap) (p : ptr) (l : list A) : out (heap * ptr) :=
  match l with
  | [] => Done (h, p)
  | x :: l => obind (add h p x) (fun '(h, p) => add_all h p l)
  end.
Definition from_slice (fuel : nat) (h : heap) (l : list A) : out (heap * ptr) :=
  obind (add_all h None l) (fun '(h, p) => reverse fuel h p).

(** ** Specification: the pointer [p] represents the sequence [xs], stored in the cells [ads]. *)
Inductive rep (h : heap) : ptr -> list nat -> list A -> Prop :=
| rep_nil : rep h None [] []
| rep_cons a x q ads xs :
    nth_error h a = Some (mkN x q (Z.of_nat (List.length xs))) -> rep h q ads xs -> rep h (Some a) (a :: ads) (x :: xs).

Lemma upd_length h a n : List.length (upd h a n) = List.length h.
Proof. revert a. induction h as [|y h IH]; intros [|a]; cbn; auto. Qed.
Lemma upd_same h a n : a < List.length h -> nth_error (upd h a n) a = Some n.
Proof. revert a. induction h as [|y h IH]; intros [|a] H; cbn in *; try lia; [reflexivity|]. apply IH. lia. Qed.
Lemma upd_other h a b n : a <> b -> nth_error (upd h a n) b = nth_error h b.
Proof. revert a b. induction h as [|y h IH]; intros [|a] [|b] H; cbn; try reflexivity; try congruence. apply IH. congruence. Qed.

(** The same without the [pos] fields. *)
Inductive chain (h : heap) : ptr -> list nat -> list A -> Prop :=
| chain_nil : chain h None [] []
| chain_cons a x q z ads xs :
    nth_error h a = Some (mkN x q z) -> chain h q ads xs -> chain h (Some a) (a :: ads) (x :: xs).
Lemma rep_chain h p ads xs : rep h p ads xs -> chain h p ads xs.
Proof. induction 1; econstructor; eassumption. Qed.
Lemma chain_head_in h a ads xs : chain h (Some a) ads xs -> In a ads.
Proof. intros H. inversion H; left; reflexivity. Qed.
Lemma chain_lengths h p ads xs : chain h p ads xs -> List.length ads = List.length xs.
Proof. induction 1; cbn; congruence. Qed.
Lemma rep_lengths h p ads xs : rep h p ads xs -> List.length ads = List.length xs.
Proof. intros H. eapply chain_lengths, rep_chain, H. Qed.
Lemma chain_bound h p ads xs : chain h p ads xs -> Forall (fun a => a < List.length h) ads.
Proof. induction 1 as [|a x q z ads xs H H1 IH]; constructor; [|exact IH]. apply nth_error_Some. congruence. Qed.
Lemma rep_bound h p ads xs : rep h p ads xs -> Forall (fun a => a < List.length h) ads.
Proof. intros H. eapply chain_bound, rep_chain, H. Qed.
Lemma chain_det h p ads xs : chain h p ads xs -> forall ads' xs', chain h p ads' xs' -> ads = ads' /\ xs = xs'.
Proof.
  induction 1 as [|a x q z ads xs H H1 IH]; intros ads' xs' H'.
  - inversion H'; auto.
  - inversion H' as [|a' x' q' z' ads2 xs2 H2 H3]; subst. rewrite H in H2. injection H2 as <- <- _.
    destruct (IH _ _ H3) as [-> ->]. auto.
Qed.
Lemma rep_det h p ads xs ads' xs' : rep h p ads xs -> rep h p ads' xs' -> ads = ads' /\ xs = xs'.
Proof. intros H H'. eapply chain_det; eapply rep_chain; eassumption. Qed.
Lemma chain_suffix h p ads xs : chain h p ads xs -> forall a, In a ads -> exists ads' xs', chain h (Some a) ads' xs' /\ List.length xs' <= List.length xs.
Proof.
  induction 1 as [|a x q z ads xs H H1 IH]; intros b Hb; [destruct Hb|]. destruct Hb as [<-|Hb].
  - eexists _, _. split; [econstructor; eassumption|cbn; lia].
  - destruct (IH b Hb) as (ads' & xs' & Hr & Hl). exists ads', xs'. split; [exact Hr|cbn; lia].
Qed.
Lemma chain_nodup h p ads xs : chain h p ads xs -> NoDup ads.
Proof.
  induction 1 as [|a x q z ads xs H H1 IH]; constructor; [|exact IH]. intros Hin.
  destruct (chain_suffix _ _ _ _ H1 a Hin) as (ads' & xs' & Hr & Hl).
  assert (Hr2 : chain h (Some a) (a :: ads) (x :: xs)) by (econstructor; eassumption).
  destruct (chain_det _ _ _ _ Hr _ _ Hr2) as [_ ->]. cbn in Hl. lia.
Qed.
Lemma rep_nodup h p ads xs : rep h p ads xs -> NoDup ads.
Proof. intros H. eapply chain_nodup, rep_chain, H. Qed.
Lemma rep_frame h h' p ads xs : (forall a, In a ads -> nth_error h' a = nth_error h a) -> rep h p ads xs -> rep h' p ads xs.
Proof.
  intros Hf H. induction H as [|a x q ads xs H H1 IH]; [constructor|]. constructor 2 with q; [rewrite Hf; [exact H|left; reflexivity]|].
  apply IH. intros b Hb. apply Hf. right. exact Hb.
Qed.
Lemma chain_frame h h' p ads xs : (forall a, In a ads -> nth_error h' a = nth_error h a) -> chain h p ads xs -> chain h' p ads xs.
Proof.
  intros Hf H. induction H as [|a x q z ads xs H H1 IH]; [constructor|]. constructor 2 with q z; [rewrite Hf; [exact H|left; reflexivity]|].
  apply IH. intros b Hb. apply Hf. right. exact Hb.
Qed.
Lemma rep_upd h p ads xs a n : ~ In a ads -> rep h p ads xs -> rep (upd h a n) p ads xs.
Proof. intros Hn. apply rep_frame. intros b Hb. apply upd_other. intros ->. contradiction. Qed.
Lemma chain_upd h p ads xs a n : ~ In a ads -> chain h p ads xs -> chain (upd h a n) p ads xs.
Proof. intros Hn. apply chain_frame. intros b Hb. apply upd_other. intros ->. contradiction. Qed.
Lemma rep_app h h2 p ads xs : rep h p ads xs -> rep (h ++ h2) p ads xs.
Proof.
  intros H. eapply rep_frame; [|exact H]. intros a Ha. apply nth_error_app1.
  pose proof (rep_bound _ _ _ _ H) as Hb. rewrite Forall_forall in Hb. auto.
Qed.
Lemma chain_fuel h p ads xs : chain h p ads xs -> List.length xs <= List.length h.
Proof.
  intros H. rewrite <- (chain_lengths _ _ _ _ H). replace (List.length h) with (List.length (seq 0 (List.length h))) by apply seq_length.
  apply NoDup_incl_length; [eapply chain_nodup; exact H|]. intros a Ha. apply in_seq.
  pose proof (chain_bound _ _ _ _ H) as Hb. rewrite Forall_forall in Hb. specialize (Hb a Ha). lia.
Qed.
Lemma rep_fuel h p ads xs : rep h p ads xs -> List.length xs <= List.length h.
Proof. intros H. eapply chain_fuel, rep_chain, H. Qed.

(** ** Len *)
Lemma len_ok h p ads xs : rep h p ads xs -> len h p = Done (Z.of_nat (List.length xs)).
Proof. intros H. destruct H as [|a x q ads xs H H1]; [reflexivity|]. unfold len, deref. rewrite H. cbn. f_equal. lia. Qed.

(** ** Add *)
Lemma add_ok h p ads xs x : rep h p ads xs ->
  add h p x = Done (h ++ [mkN x p (Z.of_nat (List.length xs))], Some (List.length h)).
Proof.
  intros H. destruct H as [|a y q ads xs H H1]; [reflexivity|]. unfold add, deref. rewrite H. cbn.
  do 5 f_equal. lia.
Qed.
Lemma add_rep h p ads xs x : rep h p ads xs ->
  rep (h ++ [mkN x p (Z.of_nat (List.length xs))]) (Some (List.length h)) (List.length h :: ads) (x :: xs).
Proof.
  intros H. econstructor; [|apply rep_app; exact H]. rewrite nth_error_app2, Nat.sub_diag by lia. reflexivity.
Qed.

(** ** ForEach *)
Fixpoint indexed (xs : list A) (i : Z) : list (A * Z) :=
  match xs with [] => [] | x :: xs => (x, i) :: indexed xs (i + 1) end.
Lemma forEach_loop_ok h p ads xs : rep h p ads xs -> p <> None ->
  forall n i, List.length xs <= n -> forEach_loop n h p i = Done (indexed xs i).
Proof.
  induction 1 as [|a x q ads xs H H1 IH]; intros Hp n i Hn; [congruence|]. destruct n as [|n]; cbn in Hn; [lia|].
  cbn. rewrite H. cbn. destruct q as [b|].
  - rewrite IH by (try discriminate; lia). reflexivity.
  - inversion H1; subst. reflexivity.
Qed.
Lemma forEach_ok h p ads xs n : rep h p ads xs -> List.length h <= n -> forEach n h p = Done (indexed xs 0).
Proof.
  intros H Hn. pose proof (rep_fuel _ _ _ _ H). destruct p as [a|].
  - cbn [forEach]. eapply forEach_loop_ok; [exact H|discriminate|lia].
  - inversion H; subst. reflexivity.
Qed.

(** ** Generator *)
Fixpoint drain (zero : A) (k : nat) (h : heap) (g : gen) : out (list (A * Z) * gen) :=
  match k with
  | O => Done ([], g)
  | S k => obind (next zero h g) (fun '(x, i, g) => obind (drain zero k h g) (fun '(l, g) => Done ((x, i) :: l, g)))
  end.
Lemma drain_ok (zero : A) h o l : forall p ads xs, rep h p ads xs -> forall i k,
  exists g', drain zero k h (mkG o p i l) = Done (firstn k (indexed xs i) ++ repeat (zero, (-1)%Z) (k - List.length xs), g') /\
    original g' = o /\ glength g' = l.
Proof.
  induction 1 as [|a x q ads xs H H1 IH]; intros i k.
  - revert i. induction k as [|k IHk]; intros i; cbn; [eauto|]. destruct (IHk i) as (g' & Hg & Ho). rewrite Nat.sub_0_r in Hg.
    cbn in Hg. rewrite firstn_nil in Hg. cbn in Hg. rewrite Hg. cbn. eauto.
  - destruct k as [|k]; cbn; [eauto|]. rewrite H. cbn. destruct (IH (i + 1)%Z k) as (g' & -> & Ho). cbn. eauto.
Qed.

(** ** Reverse *)
Lemma reverse_loop_ok : forall xs h cur ads prev pads pxs n, rep h cur ads xs -> rep h prev pads pxs ->
  NoDup (ads ++ pads) -> List.length xs < n ->
  exists h', reverse_loop n h cur prev (Z.of_nat (List.length pxs)) = Done (h', match rev ads ++ pads with [] => None | a :: _ => Some a end) /\
    rep h' (match rev ads ++ pads with [] => None | a :: _ => Some a end) (rev ads ++ pads) (rev xs ++ pxs) /\
    List.length h' = List.length h /\ (forall b, ~ In b ads -> nth_error h' b = nth_error h b).
Proof.
  induction xs as [|x xs IH]; intros h cur ads prev pads pxs n Hc Hp Hnd Hn; (destruct n as [|n]; [lia|]).
  - inversion Hc; subst. cbn. exists h. inversion Hp; subst; (split; [reflexivity|]; split; [exact Hp|auto]).
  - inversion Hc as [|a x' q ads' xs' Ha Hq]; subst. cbn [reverse_loop]. unfold deref. rewrite Ha. cbn [obind data nxt].
    set (h1 := upd h a (mkN x prev (Z.of_nat (List.length pxs)))).
    cbn [app] in Hnd. inversion Hnd as [|? ? Hna Hnd']; subst. rewrite in_app_iff in Hna.
    assert (Hal : a < List.length h) by (apply nth_error_Some; congruence).
    assert (Hq1 : rep h1 q ads' xs) by (apply rep_upd; [tauto|exact Hq]).
    assert (Hp1 : rep h1 (Some a) (a :: pads) (x :: pxs)).
    { econstructor; [apply upd_same; exact Hal|]. apply rep_upd; [tauto|exact Hp]. }
    destruct (IH h1 q ads' (Some a) (a :: pads) (x :: pxs) n Hq1 Hp1) as (h' & H1 & H2 & H3 & H4).
    { apply (NoDup_Add (a := a) (l := ads' ++ pads)); [apply Add_app|]. split; [exact Hnd'|]. rewrite in_app_iff. tauto. }
    { cbn in Hn. lia. }
    exists h'. cbn [List.length] in H1.
    replace (Z.of_nat (List.length pxs) + 1)%Z with (Z.of_nat (S (List.length pxs))) by lia.
    cbn [rev]. rewrite <- !app_assoc. cbn [app]. split; [exact H1|]. split; [exact H2|]. split; [rewrite H3; apply upd_length|].
    intros b Hb. rewrite H4 by (intros Hi; apply Hb; right; exact Hi). apply upd_other. intros ->. apply Hb. left. reflexivity.
Qed.
Definition head_of (ads : list nat) : ptr := match ads with [] => None | a :: _ => Some a end.
Lemma reverse_ok h p ads xs n : rep h p ads xs -> List.length h < n ->
  exists h', reverse n h p = Done (h', head_of (rev ads)) /\ rep h' (head_of (rev ads)) (rev ads) (rev xs) /\
    List.length h' = List.length h /\ (forall b, ~ In b ads -> nth_error h' b = nth_error h b).
Proof.
  intros H Hn. pose proof (rep_fuel _ _ _ _ H).
  destruct (reverse_loop_ok xs h p ads None [] [] n H (rep_nil h)) as (h' & H1 & H2 & H3).
  - rewrite app_nil_r. eapply rep_nodup; exact H.
  - lia.
  - rewrite !app_nil_r in *. exists h'. auto.
Qed.

(** ** Join *)
Lemma join_loop_ok : forall xs h p ads last pos n, chain h p ads xs -> List.length xs < n -> xs <> [] ->
  exists h', join_loop n h p pos last = Done (h', List.last ads 0) /\ List.length h' = List.length h /\
    (forall b, ~ In b ads -> nth_error h' b = nth_error h b) /\
    (forall k a x, nth_error ads k = Some a -> nth_error xs k = Some x ->
       nth_error h' a = Some (mkN x (head_of (skipn (S k) ads)) (pos - Z.of_nat k)%Z)).
Proof.
  induction xs as [|x xs IH]; intros h p ads last pos n H Hn Hx; [congruence|]. destruct n as [|n]; [lia|].
  inversion H as [|a x' q z ads' xs' Ha Hq]; subst. cbn [join_loop]. unfold deref. rewrite Ha. cbn [obind data nxt].
  pose proof (chain_nodup _ _ _ _ H) as Hnd. inversion Hnd as [|? ? Hna _]; subst.
  assert (Hal : a < List.length h) by (apply nth_error_Some; congruence).
  set (h1 := upd h a (mkN x q pos)). assert (Hq1 : chain h1 q ads' xs) by (apply chain_upd; assumption).
  assert (Hqh : q = head_of ads') by (inversion Hq; reflexivity).
  destruct xs as [|y ys].
  - inversion Hq; subst. cbn in Hn. destruct n as [|n]; [lia|]. cbn [join_loop]. exists h1. split; [reflexivity|].
    split; [apply upd_length|]. split.
    + intros b Hb. apply upd_other. intros ->. apply Hb. left. reflexivity.
    + intros [|k] b w; [|cbn; destruct k; discriminate]. cbn. intros E E'. injection E as <-. injection E' as <-.
      rewrite Z.sub_0_r. apply upd_same. exact Hal.
  - destruct (IH h1 q ads' a (pos - 1)%Z n Hq1 ltac:(cbn in Hn |- *; lia) ltac:(discriminate)) as (h' & H1 & H2 & H3 & H4).
    exists h'. split; [|split; [rewrite H2; apply upd_length|split]].
    + rewrite H1. do 2 f_equal. inversion Hq; subst. reflexivity.
    + intros b Hb. rewrite H3 by (intros Hi; apply Hb; right; exact Hi). apply upd_other. intros ->. apply Hb. left. reflexivity.
    + intros [|k] b w Hk Hz.
      * cbn in Hk, Hz. injection Hk as <-. injection Hz as <-. rewrite H3 by exact Hna. cbn. rewrite Z.sub_0_r, <- Hqh. apply upd_same. exact Hal.
      * cbn [nth_error] in Hk, Hz. rewrite (H4 k b w Hk Hz). change (skipn (S (S k)) (a :: ads')) with (skipn (S k) ads'). f_equal. f_equal. lia.
Qed.

Lemma rep_of_cells h : forall ads xs q qads ys, rep h q qads ys -> List.length ads = List.length xs ->
  (forall k a x, nth_error ads k = Some a -> nth_error xs k = Some x ->
     nth_error h a = Some (mkN x (head_of (skipn (S k) ads ++ qads)) (Z.of_nat (List.length xs + List.length ys) - 1 - Z.of_nat k)%Z)) ->
  rep h (head_of (ads ++ qads)) (ads ++ qads) (xs ++ ys).
Proof.
  induction ads as [|a ads IH]; intros [|x xs] q qads ys Hq Hl Hc; try discriminate.
  - cbn. inversion Hq; subst; exact Hq.
  - cbn. apply (rep_cons h a x (head_of (ads ++ qads)) (ads ++ qads) (xs ++ ys)).
    + rewrite (Hc 0 a x eq_refl eq_refl). f_equal. cbn [skipn List.length]. rewrite app_length. f_equal. lia.
    + eapply IH; [exact Hq|cbn in Hl; congruence|]. intros k b y Hb Hy. rewrite (Hc (S k) b y Hb Hy). f_equal. f_equal. cbn [List.length]. lia.
Qed.

Lemma last_nth (l : list nat) d : l <> [] -> nth_error l (List.length l - 1) = Some (List.last l d).
Proof.
  induction l as [|a l IH]; [congruence|]. intros _. destruct l as [|b l]; [reflexivity|].
  change (List.last (a :: b :: l) d) with (List.last (b :: l) d). rewrite <- IH by discriminate. cbn. rewrite Nat.sub_0_r. reflexivity.
Qed.
Lemma last_in (l : list nat) d : l <> [] -> In (List.last l d) l.
Proof. intros H. eapply nth_error_In. apply last_nth. exact H. Qed.

Lemma join_chain_ok h p ads xs q qads ys n : chain h p ads xs -> len h p = Done (Z.of_nat (List.length xs)) -> rep h q qads ys -> (forall a, In a ads -> ~ In a qads) -> xs <> [] ->
  List.length h < n ->
  exists h', join n h p q = Done h' /\ rep h' p (ads ++ qads) (xs ++ ys) /\ rep h' q qads ys /\
    List.length h' = List.length h /\ (forall b, ~ In b ads -> nth_error h' b = nth_error h b).
Proof.
  intros Hp Hlen Hq Hd Hx Hn. pose proof (chain_fuel _ _ _ _ Hp). pose proof (chain_lengths _ _ _ _ Hp) as Hl.
  destruct p as [a|]; [|inversion Hp; subst; congruence].
  unfold join. rewrite Hlen, (len_ok _ _ _ _ Hq). cbn [obind].
  destruct (join_loop_ok xs h (Some a) ads a (Z.of_nat (List.length xs) + Z.of_nat (List.length ys) - 1)%Z n Hp ltac:(lia) Hx) as (h1 & H1 & H2 & H3 & H4).
  rewrite H1. cbn [obind].
  assert (Hne : ads <> []) by (intros ->; destruct xs; [congruence|discriminate]).
  assert (Hlast := last_nth ads 0 Hne). set (la := List.last ads 0) in *.
  assert (Hlx : exists x, nth_error xs (List.length ads - 1) = Some x).
  { destruct (nth_error xs (List.length ads - 1)) eqn:E; [eauto|]. apply nth_error_None in E. destruct ads; [congruence|]. cbn in *. lia. }
  destruct Hlx as (lx & Hlx). pose proof (H4 _ _ _ Hlast Hlx) as Hcell. unfold deref. rewrite Hcell. cbn [obind data npos].
  eexists. split; [reflexivity|].
  assert (Hla : la < List.length h1) by (apply nth_error_Some; congruence).
  assert (Hin : In la ads) by (apply last_in; exact Hne).
  assert (Hq2 : rep (upd h1 la (mkN lx q (Z.of_nat (List.length xs) + Z.of_nat (List.length ys) - 1 - Z.of_nat (List.length ads - 1))%Z)) q qads ys).
  { apply rep_upd; [apply Hd; exact Hin|]. eapply rep_frame; [|exact Hq]. intros b Hb. apply H3. intros Hb'. exact (Hd b Hb' Hb). }
  split; [|split; [exact Hq2|split]].
  - assert (Ha : Some a = head_of (ads ++ qads)) by (inversion Hp; reflexivity). rewrite Ha.
    eapply rep_of_cells; [exact Hq2|exact Hl|]. intros k b x Hb Hxk.
    pose proof (chain_nodup _ _ _ _ Hp) as Hnd.
    destruct (Nat.eq_dec k (List.length ads - 1)) as [->|Hk].
    + rewrite Hb in Hlast. injection Hlast as ->. rewrite Hxk in Hlx. injection Hlx as ->. rewrite upd_same by exact Hla. f_equal. f_equal; [|lia].
      replace (S (List.length ads - 1)) with (List.length ads) by (destruct ads; [congruence|cbn; lia]). rewrite skipn_all. cbn. inversion Hq; reflexivity.
    + assert (la <> b).
      { intros E. apply Hk. eapply NoDup_nth_error; [exact Hnd|apply nth_error_Some; congruence|]. congruence. }
      rewrite upd_other by assumption. rewrite (H4 k b x Hb Hxk). f_equal. f_equal; [|lia].
      assert (k < List.length ads) by (apply nth_error_Some; congruence).
      destruct (skipn (S k) ads) eqn:E; [|reflexivity]. apply (f_equal (@List.length _)) in E. rewrite skipn_length in E. cbn in E. lia.
  - rewrite upd_length. exact H2.
  - intros b Hb. rewrite upd_other by (intros <-; contradiction). apply H3. exact Hb.
Qed.

Lemma join_ok h p ads xs q qads ys n : rep h p ads xs -> rep h q qads ys -> (forall a, In a ads -> ~ In a qads) -> xs <> [] ->
  List.length h < n ->
  exists h', join n h p q = Done h' /\ rep h' p (ads ++ qads) (xs ++ ys) /\ rep h' q qads ys /\
    List.length h' = List.length h /\ (forall b, ~ In b ads -> nth_error h' b = nth_error h b).
Proof. intros H. eapply join_chain_ok; [eapply rep_chain; exact H|eapply len_ok; exact H]. Qed.

(** ** Insert *)
Lemma seek_ok : forall xs h p ads pos n, rep h p ads xs -> List.length xs <= n -> (0 <= pos < Z.of_nat (List.length xs))%Z ->
  exists a, seek n h p pos = Done a /\ nth_error ads (List.length xs - 1 - Z.to_nat pos) = Some a.
Proof.
  induction xs as [|x xs IH]; intros h p ads pos n H Hn Hp; [cbn in Hp; lia|]. destruct n as [|n]; [cbn in Hn; lia|].
  inversion H as [|a x' q ads' xs' Ha Hq]; subst. cbn [seek]. unfold deref. rewrite Ha. cbn [obind npos].
  destruct (Z.eqb_spec (Z.of_nat (List.length xs)) pos) as [E|E].
  - exists a. split; [reflexivity|]. replace (List.length (x :: xs) - 1 - Z.to_nat pos) with 0 by (cbn; lia). reflexivity.
  - destruct (IH h q ads' pos n Hq) as (b & H1 & H2); [cbn in Hn; lia|cbn [List.length] in Hp; lia|]. exists b. split; [exact H1|].
    replace (List.length (x :: xs) - 1 - Z.to_nat pos) with (S (List.length xs - 1 - Z.to_nat pos)); [exact H2|]. cbn [List.length] in *. lia.
Qed.

(** cutting a list in two: the cell [k] gets a nil [next], and all [pos] fields before drop by the length of the rest *)
Lemma rep_split h : forall k p ads xs, rep h p ads xs -> rep h (head_of (skipn k ads)) (skipn k ads) (skipn k xs).
Proof.
  induction k as [|k IH]; intros p ads xs H; [cbn; inversion H; subst; exact H|].
  inversion H as [|a x q ads' xs' Ha Hq]; subst; [constructor|]. cbn [skipn]. eapply IH; exact Hq.
Qed.
Lemma rep_cell h p ads xs k a : rep h p ads xs -> nth_error ads k = Some a ->
  exists x, nth_error xs k = Some x /\ nth_error h a = Some (mkN x (head_of (skipn (S k) ads)) (Z.of_nat (List.length xs - 1 - k))).
Proof.
  intros H. revert k. induction H as [|b x q ads xs Hb Hq IH]; intros k Hk; [destruct k; discriminate|]. destruct k as [|k].
  - cbn in Hk. injection Hk as <-. exists x. split; [reflexivity|]. rewrite Hb. cbn. f_equal. f_equal; [inversion Hq; reflexivity|]. lia.
  - cbn in Hk. destruct (IH k Hk) as (y & Hy & Hc). exists y. split; [exact Hy|]. rewrite Hc. cbn [List.length]. f_equal. f_equal. lia.
Qed.

Lemma skipn_cons_nth {T} (l : list T) k x : nth_error l k = Some x -> skipn k l = x :: skipn (S k) l.
Proof. revert l. induction k as [|k IH]; intros [|y l] H; try discriminate; cbn in *; [congruence|]. apply IH. exact H. Qed.
Lemma firstn_snoc {T} (l : list T) k x : nth_error l k = Some x -> firstn (S k) l = firstn k l ++ [x].
Proof. revert l. induction k as [|k IH]; intros [|y l] H; try discriminate; cbn in *; [congruence|]. f_equal. apply IH. exact H. Qed.
(** the first [S k] cells after the cut *)
Lemma cut_chain : forall k h p ads xs mid m, chain h p ads xs -> nth_error ads k = Some mid -> nth_error h mid = Some m -> forall z,
  chain (upd h mid (mkN (data m) None z)) p (firstn (S k) ads) (firstn (S k) xs).
Proof.
  induction k as [|k IH]; intros h p ads xs mid m H Hk Hm z; pose proof (chain_nodup _ _ _ _ H) as Hnd;
    inversion H as [|a x q z' ads' xs' Ha Hq]; subst; try discriminate; cbn in Hk.
  - injection Hk as ->. rewrite Hm in Ha. injection Ha as ->. cbn. econstructor; [|constructor].
    apply upd_same. apply nth_error_Some. congruence.
  - change (firstn (S (S k)) (a :: ads')) with (a :: firstn (S k) ads'). change (firstn (S (S k)) (x :: xs')) with (x :: firstn (S k) xs').
    econstructor; [|eapply IH; eassumption]. rewrite upd_other; [exact Ha|]. inversion Hnd; subst. intros ->.
    match goal with Hn : ~ In a ads' |- _ => apply Hn; eapply nth_error_In; exact Hk end.
Qed.
Lemma rep_head_cell h p ads xs : rep h p ads xs -> xs <> [] -> exists a x q, p = Some a /\ nth_error h a = Some (mkN x q (Z.of_nat (List.length xs) - 1)%Z) /\
  nth_error ads 0 = Some a.
Proof. intros H Hx. inversion H as [|a x q ads' xs' Ha Hq]; subst; [congruence|]. exists a, x, q. split; [reflexivity|]. split; [|reflexivity]. rewrite Ha. f_equal. f_equal. cbn [List.length]. lia. Qed.
(** changing only the head's [pos] keeps a chain *)
Lemma chain_repos h a x q z ads xs z' : chain h (Some a) ads xs -> nth_error h a = Some (mkN x q z) ->
  chain (upd h a (mkN x q z')) (Some a) ads xs.
Proof.
  intros H Ha. pose proof (chain_nodup _ _ _ _ H) as Hnd. inversion H as [|a' x' q' z2 ads' xs' Ha' Hq]; subst.
  rewrite Ha in Ha'. injection Ha' as <- <- _. inversion Hnd; subst. econstructor.
  - apply upd_same. apply nth_error_Some. congruence.
  - apply chain_upd; assumption.
Qed.

(** the position, counted from the end, at which Insert puts the new element *)
Definition insert_at (xs : list A) (x : A) (pos : Z) : list A :=
  if Z.leb (Z.of_nat (List.length xs)) pos then x :: xs
  else let k := List.length xs - Z.to_nat pos in firstn k xs ++ x :: skipn k xs.
Lemma insert_ok h p ads xs x pos n : rep h p ads xs -> S (List.length h) < n ->
  exists h' p' ads', insert n h p x pos = Done (h', p') /\ rep h' p' ads' (insert_at xs x pos) /\
    (forall b, b < List.length h -> ~ In b ads -> nth_error h' b = nth_error h b) /\
    (forall b, In b ads' -> In b ads \/ b = List.length h) /\ List.length h' = S (List.length h).
Proof.
  intros H Hn. pose proof (rep_fuel _ _ _ _ H) as Hf. pose proof (rep_lengths _ _ _ _ H) as Hlen.
  unfold insert, insert_at. rewrite (len_ok _ _ _ _ H). cbn [obind].
  assert (Hadd : exists h' p' ads', add h p x = Done (h', p') /\ rep h' p' ads' (x :: xs) /\
    (forall b, b < List.length h -> ~ In b ads -> nth_error h' b = nth_error h b) /\
    (forall b, In b ads' -> In b ads \/ b = List.length h) /\ List.length h' = S (List.length h)).
  { rewrite (add_ok _ _ _ _ x H). eexists _, _, _. split; [reflexivity|]. split; [apply add_rep; exact H|]. split; [|split].
    - intros b Hb _. apply nth_error_app1. exact Hb.
    - intros b [<-|Hb]; auto.
    - rewrite app_length. cbn. lia. }
  destruct p as [a|].
  2:{ inversion H; subst. destruct (Z.leb_spec (Z.of_nat (List.length (@nil A))) pos); [exact Hadd|]. cbn [List.length Nat.sub firstn skipn app]. exact Hadd. }
  destruct (Z.leb_spec (Z.of_nat (List.length xs)) pos) as [Hp|Hp]; [exact Hadd|]. clear Hadd.
  assert (Hxs : xs <> []) by (inversion H; discriminate).
  set (pos' := if Z.ltb pos 0 then 0%Z else pos).
  assert (Hpos : (0 <= pos' < Z.of_nat (List.length xs))%Z) by (unfold pos'; destruct (Z.ltb_spec pos 0); destruct xs; cbn [List.length] in *; try congruence; lia).
  replace (Z.to_nat pos) with (Z.to_nat pos') by (unfold pos'; destruct (Z.ltb_spec pos 0); lia).
  destruct (seek_ok xs h (Some a) ads pos' n H ltac:(lia) Hpos) as (mid & Hs & Hmid). cbv zeta. rewrite Hs. cbn [obind].
  set (k := List.length xs - 1 - Z.to_nat pos') in *.
  destruct (rep_cell _ _ _ _ _ _ H Hmid) as (y & Hy & Hc). unfold deref at 1. rewrite Hc. cbn [obind data nxt npos].
  set (h1 := upd h mid (mkN y None (Z.of_nat (List.length xs - 1 - k)))).
  assert (Hsk : List.length xs - Z.to_nat pos' = S k) by (unfold k; lia). rewrite Hsk.
  pose proof (rep_nodup _ _ _ _ H) as Hnd.
  assert (Hch1 : chain h1 (Some a) (firstn (S k) ads) (firstn (S k) xs)).
  { eapply (cut_chain k h (Some a) ads xs mid _ (rep_chain _ _ _ _ H) Hmid Hc). }
  assert (Hhd : exists x0 q0, nth_error h1 a = Some (mkN x0 q0 (Z.of_nat (List.length xs) - 1)%Z)).
  { destruct (rep_head_cell _ _ _ _ H Hxs) as (a' & x0 & q0 & E & Ha & Ha0). injection E as <-.
    destruct (Nat.eq_dec mid a) as [->|Hne].
    - eexists _, _. unfold h1. rewrite upd_same by (apply nth_error_Some; congruence). f_equal. f_equal.
      assert (k = 0) as ->. { eapply NoDup_nth_error; [exact Hnd|apply nth_error_Some; congruence|congruence]. } lia.
    - exists x0, q0. unfold h1. rewrite upd_other by exact Hne. exact Ha. }
  destruct Hhd as (x0 & q0 & Hhd). unfold deref at 1. rewrite Hhd. cbn [obind data nxt npos].
  set (h2 := upd h1 a (mkN x0 q0 (Z.of_nat (List.length xs) - 1 - Z.of_nat (List.length xs - 1 - k))%Z)).
  assert (Hch2 : chain h2 (Some a) (firstn (S k) ads) (firstn (S k) xs)) by (eapply chain_repos; eassumption).
  assert (Hdis : forall b, In b (skipn (S k) ads) -> ~ In b (firstn (S k) ads)).
  { intros b Hb Hb'. rewrite <- (firstn_skipn (S k) ads) in Hnd. clear - Hb Hb' Hnd. induction (firstn (S k) ads) as [|z l IH]; [destruct Hb'|].
    cbn in Hnd. inversion Hnd; subst. destruct Hb' as [->|Hb']; [|auto]. rewrite in_app_iff in *. tauto. }
  assert (Ha1 : In a (firstn (S k) ads)) by (eapply chain_head_in; exact Hch2).
  assert (Hm1 : In mid (firstn (S k) ads)) by (rewrite (firstn_snoc _ _ _ Hmid), in_app_iff; right; left; reflexivity).
  assert (Hbot : rep h2 (head_of (skipn (S k) ads)) (skipn (S k) ads) (skipn (S k) xs)).
  { apply rep_upd; [intros Hi; exact (Hdis _ Hi Ha1)|]. apply rep_upd; [intros Hi; exact (Hdis _ Hi Hm1)|]. eapply rep_split; exact H. }
  rewrite (add_ok _ _ _ _ x Hbot). cbn [obind].
  set (h3 := h2 ++ _). assert (Hbot3 : rep h3 (Some (List.length h2)) (List.length h2 :: skipn (S k) ads) (x :: skipn (S k) xs)) by (apply add_rep; exact Hbot).
  assert (Hl2 : List.length h2 = List.length h) by (unfold h2, h1; rewrite !upd_length; reflexivity).
  assert (Hl3 : List.length h3 = S (List.length h)) by (unfold h3; rewrite app_length; cbn; lia).
  assert (Hch3 : chain h3 (Some a) (firstn (S k) ads) (firstn (S k) xs)).
  { eapply chain_frame; [|exact Hch2]. intros b Hb. apply nth_error_app1. pose proof (chain_bound _ _ _ _ Hch2) as Hbd. rewrite Forall_forall in Hbd. auto. }
  assert (Hkl : S k <= List.length xs) by (assert (k < List.length ads) by (apply nth_error_Some; congruence); lia).
  assert (Hlen3 : len h3 (Some a) = Done (Z.of_nat (List.length (firstn (S k) xs)))).
  { unfold len, deref, h3. rewrite nth_error_app1.
    - unfold h2. rewrite upd_same by (apply nth_error_Some; congruence). cbn [obind npos]. f_equal. rewrite firstn_length. lia.
    - rewrite Hl2. pose proof (rep_bound _ _ _ _ H) as Hbd. rewrite Forall_forall in Hbd. apply Hbd. eapply chain_head_in, rep_chain, H. }
  destruct (join_chain_ok h3 (Some a) _ _ (Some (List.length h2)) _ _ n Hch3 Hlen3 Hbot3) as (h' & Hj & Hr & _ & Hl' & Hfr).
  - intros b Hb [<-|Hb']; [|exact (Hdis _ Hb' Hb)]. pose proof (chain_bound _ _ _ _ Hch2) as Hbd. rewrite Forall_forall in Hbd. specialize (Hbd _ Hb). lia.
  - destruct xs; [congruence|discriminate].
  - lia.
  - rewrite Hj. cbn [obind]. eexists _, _, _. split; [reflexivity|]. split; [exact Hr|]. split; [|split; [|lia]].
    + intros b Hb Hnb. assert (Hnf : ~ In b (firstn (S k) ads)). { intros Hi. apply Hnb. rewrite <- (firstn_skipn (S k) ads). apply in_app_iff. auto. }
      rewrite Hfr by exact Hnf. unfold h3. rewrite nth_error_app1 by lia. unfold h2, h1. rewrite !upd_other; [reflexivity| |]; intros <-; contradiction.
    + intros b Hb. apply in_app_iff in Hb. rewrite <- (firstn_skipn (S k) ads), in_app_iff. destruct Hb as [Hb|[<-|Hb]]; auto.
Qed.

(** ** FromSlice *)
Lemma add_all_ok : forall l h p ads xs, rep h p ads xs ->
  exists h' p' ads', add_all h p l = Done (h', p') /\ rep h' p' ads' (rev l ++ xs) /\
    (forall b, b < List.length h -> nth_error h' b = nth_error h b) /\ List.length h' = List.length h + List.length l /\
    (forall b, In b ads' -> In b ads \/ List.length h <= b).
Proof.
  induction l as [|x l IH]; intros h p ads xs H; [exists h, p, ads; cbn; rewrite Nat.add_0_r; auto 10|].
  cbn [add_all]. rewrite (add_ok _ _ _ _ x H). cbn [obind].
  destruct (IH _ _ _ _ (add_rep _ _ _ _ x H)) as (h' & p' & ads' & H1 & H2 & H3 & H4 & H5). exists h', p', ads'. split; [exact H1|].
  rewrite app_length in *. cbn [List.length] in *. split; [cbn [rev]; rewrite <- app_assoc; exact H2|]. split; [|split; [lia|]].
  - intros b Hb. rewrite H3 by lia. apply nth_error_app1. exact Hb.
  - intros b Hb. destruct (H5 b Hb) as [[<-|Hi]|Hi]; auto; right; lia.
Qed.
Lemma from_slice_ok h l n : List.length h + List.length l < n ->
  exists h' p' ads', from_slice n h l = Done (h', p') /\ rep h' p' ads' l /\
    (forall b, b < List.length h -> nth_error h' b = nth_error h b) /\ (forall b, In b ads' -> List.length h <= b).
Proof.
  intros Hn. unfold from_slice. destruct (add_all_ok l h None [] [] (rep_nil h)) as (h1 & p1 & ads1 & H1 & H2 & H3 & H4 & H5).
  rewrite H1. cbn [obind]. destruct (reverse_ok h1 p1 ads1 _ n H2 ltac:(lia)) as (h2 & H6 & H7 & H8 & H9).
  rewrite app_nil_r, rev_involutive in H7. exists h2, (head_of (rev ads1)), (rev ads1). split; [exact H6|]. split; [exact H7|].
  assert (Hge : forall b, In b ads1 -> List.length h <= b) by (intros b Hb; destruct (H5 b Hb) as [[]|]; assumption). split.
  - intros b Hb. rewrite H9; [apply H3; exact Hb|]. intros Hi. specialize (Hge b Hi). lia.
  - intros b Hb. apply Hge. apply in_rev. exact Hb.
Qed.
End Lists.
Arguments Done {R} _. Arguments NilPtr {R}. Arguments Diverge {R}.
