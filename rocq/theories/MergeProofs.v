(** * MergeProofs: joining lists in place, once and twice (lemmas for PropMerge.v). *)
From Verif Require Import Base LinkedList Merge.

Section Heap.
Context {A : Type}.
Notation heap := (@heap A).

(** ** Lists that read as given, in cells of their own *)
Inductive lists (h : heap) : list ptr -> list (list nat) -> list (list A) -> Prop :=
| lists_nil : lists h [] [] []
| lists_cons q b y qs bs ys : rep h q b y -> lists h qs bs ys -> lists h (q :: qs) (b :: bs) (y :: ys).
Lemma lists_frame h h' qs bs ys : (forall a, In a (List.concat bs) -> nth_error h' a = nth_error h a) -> lists h qs bs ys -> lists h' qs bs ys.
Proof.
  intros F H. induction H as [|q b y qs bs ys R H IH]; constructor.
  - eapply rep_frame; [|exact R]. intros a Ha. apply F. cbn. apply in_app_iff. auto.
  - apply IH. intros a Ha. apply F. cbn. apply in_app_iff. auto.
Qed.
Lemma NoDup_app_iff {T} (l m : list T) : NoDup (l ++ m) <-> NoDup l /\ NoDup m /\ forall a, In a l -> ~ In a m.
Proof.
  induction l as [|x l IH]; cbn; [split; [intros H; split; [constructor|split; [exact H|intros a []]]|tauto]|].
  rewrite !NoDup_cons_iff, IH, in_app_iff. split.
  - intros (H1 & H2 & H3 & H4). split; [tauto|]. split; [tauto|]. intros a [<-|Ha]; [tauto|auto].
  - intros ((H1 & H2) & H3 & H4). split; [intros [X|X]; [auto|apply (H4 x); auto]|]. split; [exact H2|]. split; [exact H3|]. intros a Ha. apply H4. auto.
Qed.

(** ** The first time *)
Lemma joins_nil_receiver n (h : heap) qs : joins n h None qs = Done h.
Proof. induction qs as [|q qs IH]; [reflexivity|exact IH]. Qed.
Lemma joins_ok n : forall qs h p ads xs bs ys, rep h p ads xs -> xs <> [] -> lists h qs bs ys -> NoDup (ads ++ List.concat bs) -> List.length h < n ->
  exists h', joins n h p qs = Done h' /\ List.length h' = List.length h /\ rep h' p (ads ++ List.concat bs) (xs ++ List.concat ys) /\
    forall a, ~ In a (ads ++ List.concat bs) -> nth_error h' a = nth_error h a.
Proof.
  induction qs as [|q qs IH]; intros h p ads xs bs ys R X L N F; inversion L as [|q' b y qs' bs' ys' Rq L']; subst; cbn [joins List.concat].
  - exists h. rewrite !app_nil_r. auto.
  - cbn [List.concat] in N. rewrite app_assoc in N. pose proof (proj1 (NoDup_app_iff _ _) N) as (N1 & N2 & N3). pose proof (proj1 (NoDup_app_iff _ _) N1) as (N4 & N5 & N6).
    destruct (join_ok h p ads xs q b y n R Rq N6 X F) as (h1 & J & R1 & _ & Len1 & F1). rewrite J. cbn [obind].
    destruct (IH h1 p (ads ++ b) (xs ++ y) bs' ys' R1) as (h2 & J2 & Len2 & R2 & F2).
    + destruct xs; [congruence|discriminate].
    + eapply lists_frame; [|exact L']. intros a Ha. apply F1. intros Hi. apply (N3 a); [apply in_app_iff; auto|exact Ha].
    + exact N.
    + lia.
    + exists h2. rewrite J2. rewrite !app_assoc. split; [reflexivity|]. split; [congruence|]. split; [exact R2|].
      intros a Ha. rewrite F2 by exact Ha. apply F1. intros Hi. apply Ha. rewrite <- !app_assoc. apply in_app_iff. auto.
Qed.
Lemma lists_nth h qs bs ys q l r : lists h (l ++ q :: r) bs ys -> qs = l ++ q :: r -> exists bl b br yl y yr,
  bs = bl ++ b :: br /\ ys = yl ++ y :: yr /\ lists h l bl yl /\ rep h q b y /\ lists h r br yr.
Proof.
  intros H _. revert bs ys H. induction l as [|a l IH]; intros bs ys H; cbn in H; inversion H as [|q' b y qs' bs' ys' R H']; subst.
  - exists [], b, bs', [], y, ys'. repeat split; auto. constructor.
  - destruct (IH _ _ H') as (bl & b' & br & yl & y' & yr & -> & -> & L & R' & L'). exists (b :: bl), b', br, (y :: yl), y', yr. repeat split; auto. constructor; auto.
Qed.
Lemma skipn_app_exact {T} (l m : list T) : skipn (List.length l) (l ++ m) = m.
Proof. induction l; [reflexivity|exact IHl]. Qed.
Lemma lists_concat_length h qs bs ys : lists h qs bs ys -> List.length (List.concat bs) = List.length (List.concat ys).
Proof. induction 1 as [|q b y qs bs ys R H IH]; cbn; [reflexivity|]. rewrite !app_length, IH, (rep_lengths _ _ _ _ R). reflexivity. Qed.
(** what the extension's list reads afterwards *)
Lemma joins_suffix h h' p ads xs l q r bs ys : rep h p ads xs -> lists h (l ++ q :: r) bs ys -> rep h' p (ads ++ List.concat bs) (xs ++ List.concat ys) ->
  exists yl y yr, ys = yl ++ y :: yr /\ List.length yl = List.length l /\ exists c, rep h' q c (match y with [] => [] | _ => y ++ List.concat yr end).
Proof.
  intros R L R'. destruct (lists_nth _ _ _ _ _ _ _ L eq_refl) as (bl & b & br & yl & y & yr & -> & -> & Ll & Rq & Lr). exists yl, y, yr. split; [reflexivity|].
  split; [clear -Ll; induction Ll; cbn; congruence|]. rewrite !List.concat_app in R'. cbn [List.concat] in R'. rewrite !app_assoc in R'.
  pose proof (rep_split h' (List.length (ads ++ List.concat bl)) _ _ _ R') as S. rewrite <- !app_assoc, (app_assoc ads) in S. rewrite skipn_app_exact in S. rewrite app_length in S at 1.
  replace (List.length ads + List.length (List.concat bl)) with (List.length (xs ++ List.concat yl)) in S at 1 by (rewrite app_length, (rep_lengths _ _ _ _ R), (lists_concat_length _ _ _ _ Ll); reflexivity).
  rewrite ?(app_assoc xs) in S.
  destruct Rq as [|a x q b y Ha Rq]; [exists []; constructor|]. eexists. 
  replace (List.length (ads ++ List.concat bl)) with (List.length (xs ++ List.concat yl)) in S by (rewrite !app_length, (rep_lengths _ _ _ _ R), (lists_concat_length _ _ _ _ Ll); reflexivity).
  rewrite ?skipn_app_exact in S. exact S.
Qed.

Record gjob := mkJ { g_p : ptr; g_qs : list ptr; g_ads : list nat; g_xs : list A; g_bs : list (list nat); g_ys : list (list A) }.
Definition cells (g : gjob) : list nat := g_ads g ++ List.concat (g_bs g).
Definition good (h : heap) (g : gjob) : Prop := rep h (g_p g) (g_ads g) (g_xs g) /\ lists h (g_qs g) (g_bs g) (g_ys g).
Definition done (h : heap) (g : gjob) : Prop :=
  match g_xs g with [] => good h g | _ => rep h (g_p g) (cells g) (g_xs g ++ List.concat (g_ys g)) end.
Definition call (g : gjob) : ptr * list ptr := (g_p g, g_qs g).
Lemma good_frame h h' g : (forall a, In a (cells g) -> nth_error h' a = nth_error h a) -> good h g -> good h' g.
Proof.
  intros F [R L]. split; [eapply rep_frame; [|exact R]|eapply lists_frame; [|exact L]]; intros a Ha; apply F; apply in_app_iff; auto.
Qed.
Lemma done_frame h h' g : (forall a, In a (cells g) -> nth_error h' a = nth_error h a) -> done h g -> done h' g.
Proof. intros F. unfold done. destruct (g_xs g); [apply good_frame; exact F|]. apply rep_frame. exact F. Qed.
Lemma joinss_ok n : forall gs h, Forall (good h) gs -> NoDup (List.concat (map cells gs)) -> List.length h < n ->
  exists h', joinss n h (map call gs) = Done h' /\ List.length h' = List.length h /\ Forall (done h') gs /\
    forall a, ~ In a (List.concat (map cells gs)) -> nth_error h' a = nth_error h a.
Proof.
  induction gs as [|g gs IH]; intros h G N F; [exists h; auto|]. inversion G as [|? ? [R L] G']; subst. cbn [map List.concat] in N.
  apply NoDup_app_iff in N as (N1 & N2 & N3). cbn [map joinss call]. unfold call at 1.
  assert (S : exists h1, joins n h (g_p g) (g_qs g) = Done h1 /\ List.length h1 = List.length h /\ done h1 g /\ forall a, ~ In a (cells g) -> nth_error h1 a = nth_error h a).
  { unfold done. destruct (g_xs g) as [|x xs] eqn:E.
    - inversion R as [P|]; subst. rewrite <- P in *. rewrite joins_nil_receiver. exists h. split; [reflexivity|]. split; [reflexivity|]. split; [|auto]. split; [rewrite <- P, E; exact R|exact L].
    - destruct (joins_ok n _ h _ _ _ _ _ R ltac:(discriminate) L N1 F) as (h1 & J & Len & R1 & F1). eauto 6. }
  destruct S as (h1 & -> & Len1 & D1 & F1). cbn [obind].
  destruct (IH h1) as (h2 & J2 & Len2 & D2 & F2).
  - rewrite Forall_forall in *. intros g' Hg'. eapply good_frame; [|apply G'; exact Hg']. intros a Ha. apply F1. intros Hi. apply (N3 a Hi). apply in_concat. exists (cells g'). split; [apply in_map; exact Hg'|exact Ha].
  - exact N2.
  - lia.
  - exists h2. split; [exact J2|]. split; [congruence|]. split; [constructor; [|exact D2]|].
    + eapply done_frame; [|exact D1]. intros a Ha. apply F2. apply N3. exact Ha.
    + intros a Ha. cbn [map List.concat] in Ha. rewrite in_app_iff in Ha. rewrite F2 by tauto. apply F1. tauto.
Qed.

(** ** The second time *)
Definition looped (h : heap) (S : list nat) : Prop := forall a, In a S -> exists x b z, nth_error h a = Some (mkN x (Some b) z) /\ In b S.
Lemma looped_forEach (h : heap) S : looped h S -> forall n a i, In a S -> forEach_loop n h (Some a) i = Diverge.
Proof.
  intros L. induction n as [|n IH]; intros a i Ha; [reflexivity|]. destruct (L a Ha) as (x & b & z & E & Hb). cbn [forEach_loop deref]. rewrite E. cbn [obind nxt data].
  rewrite (IH b _ Hb). reflexivity.
Qed.
Lemma looped_join_loop S : forall n (h : heap) a pos l, looped h S -> In a S -> join_loop n h (Some a) pos l = Diverge.
Proof.
  induction n as [|n IH]; intros h a pos l L Ha; [reflexivity|]. destruct (L a Ha) as (x & b & z & E & Hb). cbn [join_loop deref]. rewrite E. cbn [obind nxt data].
  apply IH; [|exact Hb]. intros c Hc. destruct (Nat.eq_dec a c) as [<-|Hn].
  - exists x, b, pos. split; [|exact Hb]. apply upd_same. apply nth_error_Some. congruence.
  - rewrite upd_other by exact Hn. apply L. exact Hc.
Qed.
Lemma looped_join n (h : heap) S a q : looped h S -> In a S -> match q with None => True | Some b => b < List.length h end -> join n h (Some a) q = Diverge.
Proof.
  intros L Ha Hq. unfold join, len. destruct (L a Ha) as (x & b & z & E & Hb). cbn [deref]. rewrite E. cbn [obind].
  destruct q as [c|].
  - cbn [deref]. destruct (nth_error h c) eqn:Ec; [|apply nth_error_None in Ec; lia]. cbn [obind]. rewrite (looped_join_loop S n h a _ a L Ha). reflexivity.
  - cbn [obind]. rewrite (looped_join_loop S n h a _ a L Ha). reflexivity.
Qed.
(** joining a list to one of its own tails *)
Lemma join_own_tail (h : heap) p ads xs b n : rep h p ads xs -> In b ads -> List.length h < n ->
  exists h', join n h p (Some b) = Done h' /\ List.length h' = List.length h /\ looped h' ads /\ forall a, ~ In a ads -> nth_error h' a = nth_error h a.
Proof.
  intros R Hb F. pose proof (rep_chain _ _ _ _ R) as C. pose proof (rep_fuel _ _ _ _ R) as Fu. pose proof (rep_lengths _ _ _ _ R) as Hl.
  assert (Hne : ads <> []) by (intros ->; destruct Hb). assert (Hx : xs <> []) by (intros ->; destruct ads; [congruence|discriminate]).
  destruct p as [a|]; [|inversion R; subst; congruence]. unfold join. rewrite (len_ok _ _ _ _ R). cbn [obind].
  pose proof (rep_bound _ _ _ _ R) as Bd. rewrite Forall_forall in Bd. pose proof (Bd b Hb) as Hbl.
  unfold len. cbn [deref]. destruct (nth_error h b) as [nb|] eqn:Eb; [|apply nth_error_None in Eb; lia]. cbn [obind].
  destruct (join_loop_ok xs h (Some a) ads a (Z.of_nat (List.length xs) + (npos nb + 1) - 1)%Z n C ltac:(lia) Hx) as (h1 & -> & Len & F1 & H4). cbn [obind].
  pose proof (last_nth ads 0 Hne) as La. pose proof (last_in ads 0 Hne) as Li. set (la := List.last ads 0) in *.
  assert (Hlx : exists x, nth_error xs (List.length ads - 1) = Some x).
  { destruct (nth_error xs (List.length ads - 1)) eqn:E; [eauto|]. apply nth_error_None in E. destruct ads; [congruence|]. cbn in *. lia. }
  destruct Hlx as (lx & Hlx). pose proof (H4 _ _ _ La Hlx) as Hc. cbn [deref]. rewrite Hc. cbn [obind data npos].
  eexists. split; [reflexivity|]. split; [rewrite upd_length; exact Len|]. split.
  - intros c Hin. destruct (Nat.eq_dec la c) as [<-|Hn].
    + eexists _, b, _. split; [apply upd_same; apply nth_error_Some; congruence|exact Hb].
    + rewrite upd_other by exact Hn. apply In_nth_error in Hin as (k & Hk).
      assert (Hkl : k < List.length ads) by (apply nth_error_Some; congruence).
      assert (k <> List.length ads - 1) by (intros ->; congruence).
      destruct (nth_error xs k) as [x|] eqn:Ex; [|apply nth_error_None in Ex; lia]. rewrite (H4 _ _ _ Hk Ex).
      destruct (skipn (S k) ads) as [|d l] eqn:Es; [apply (f_equal (@List.length _)) in Es; rewrite skipn_length in Es; cbn in Es; lia|].
      cbn [head_of]. eexists _, d, _. split; [reflexivity|]. assert (Hd : In d (skipn (S k) ads)) by (rewrite Es; left; reflexivity). rewrite <- (firstn_skipn (S k) ads). apply in_app_iff. auto.
  - intros c Hin. rewrite upd_other by (intros <-; contradiction). apply F1. exact Hin.
Qed.
Lemma join_nil_arg (h : heap) p ads xs n : rep h p ads xs -> List.length h < n ->
  exists h', join n h p None = Done h' /\ List.length h' = List.length h /\ rep h' p ads xs /\ forall a, ~ In a ads -> nth_error h' a = nth_error h a.
Proof.
  intros R F. destruct xs as [|x xs].
  - inversion R; subst. exists h. auto.
  - destruct (join_ok h p ads (x :: xs) None [] [] n R (rep_nil h) (fun _ _ H => H) ltac:(discriminate) F) as (h' & J & R' & _ & L & Fr). rewrite !app_nil_r in R'. eauto 6.
Qed.
(** [qs] are nil, but possibly for the last *)
Definition single (qs : list ptr) : Prop := Forall (eq None) (removelast qs).
Lemma rejoins n : forall qs (h : heap) p ads xs, rep h p ads xs -> xs <> [] -> Forall (fun q => match q with None => True | Some b => In b ads end) qs -> List.length h < n ->
  (Forall (eq None) qs -> exists h', joins n h p qs = Done h' /\ List.length h' = List.length h /\ rep h' p ads xs /\ forall a, ~ In a ads -> nth_error h' a = nth_error h a) /\
  (single qs -> ~ Forall (eq None) qs -> exists h', joins n h p qs = Done h' /\ List.length h' = List.length h /\ looped h' ads /\ forall a, ~ In a ads -> nth_error h' a = nth_error h a) /\
  (~ single qs -> joins n h p qs = Diverge).
Proof.
  induction qs as [|q qs IH]; intros h p ads xs R X Q F.
  - split; [intros _; exists h; auto|]. split; [intros _ N; destruct N; constructor|]. intros N. destruct N. constructor.
  - inversion Q as [|? ? Hq Q']; subst. cbn [joins]. destruct q as [b|].
    + destruct (join_own_tail h p ads xs b n R Hq F) as (h1 & J & Len & Lo & Fr). rewrite J. cbn [obind]. split; [intros N; inversion N; discriminate|].
      destruct qs as [|q qs].
      * cbn [joins]. split; [intros _ _; eauto 6|]. intros N. destruct N. constructor.
      * split; [intros N; unfold single in N; cbn in N; inversion N; discriminate|]. intros _. cbn [joins].
        destruct p as [a|]; [|inversion R; subst; congruence].
        rewrite (looped_join n h1 ads a q Lo (chain_head_in _ _ _ _ (rep_chain _ _ _ _ R))); [reflexivity|].
        inversion Q' as [|? ? Hq2 _]; subst. destruct q as [c|]; [|exact I]. rewrite Len. pose proof (rep_bound _ _ _ _ R) as Bd. rewrite Forall_forall in Bd. apply Bd. exact Hq2.
    + destruct (join_nil_arg h p ads xs n R F) as (h1 & J & Len & R1 & Fr). rewrite J. cbn [obind].
      destruct (IH h1 p ads xs R1 X Q' ltac:(lia)) as (I1 & I2 & I3). split; [|split].
      * intros N. inversion N as [|? ? _ N']; subst. destruct (I1 N') as (h2 & J2 & L2 & R2 & F2). exists h2. split; [exact J2|]. split; [congruence|]. split; [exact R2|]. intros a Ha. rewrite F2, Fr by exact Ha. reflexivity.
      * intros S N. assert (S' : single qs) by (unfold single in *; destruct qs; [constructor|]; cbn in S; inversion S; assumption).
        assert (N' : ~ Forall (eq None) qs) by (intros H; apply N; constructor; auto).
        destruct (I2 S' N') as (h2 & J2 & L2 & R2 & F2). exists h2. split; [exact J2|]. split; [congruence|]. split; [exact R2|]. intros a Ha. rewrite F2, Fr by exact Ha. reflexivity.
      * intros N. apply I3. intros S. apply N. unfold single in *. destruct qs; [constructor|]. cbn. constructor; [reflexivity|exact S].
Qed.

Definition twice (h : heap) (g : gjob) : Prop :=
  if match g_xs g with [] => true | _ => match List.concat (g_ys g) with [] => true | _ => false end end then done h g
  else looped h (cells g) /\ exists a, g_p g = Some a /\ In a (cells g).
(** the second round returns: the receiver is empty, or nothing but the last list is not *)
Definition harmless (g : gjob) : Prop := g_xs g = [] \/ Forall (eq []) (removelast (g_ys g)).
Lemma nil_iff (h : heap) q b y : rep h q b y -> (q = None <-> y = []).
Proof. intros R. inversion R; subst; split; congruence. Qed.
Lemma lists_nils h qs bs ys : lists h qs bs ys -> (Forall (eq None) qs <-> Forall (eq []) ys).
Proof.
  induction 1 as [|q b y qs bs ys R H IH]; [split; constructor|]. pose proof (nil_iff _ _ _ _ R) as E.
  split; intros F; inversion F as [|? ? E1 F']; subst; constructor; try tauto; symmetry; apply E; reflexivity.
Qed.
Lemma lists_single h qs bs ys : lists h qs bs ys -> (single qs <-> Forall (eq []) (removelast ys)).
Proof.
  unfold single. induction 1 as [|q b y qs bs ys R H IH]; [split; constructor|]. pose proof (nil_iff _ _ _ _ R) as E.
  cbn. inversion H; subst; [split; constructor|].
  split; intros F; inversion F as [|? ? E1 F']; subst; (constructor; [symmetry; apply E; reflexivity|apply IH; assumption]).
Qed.
Lemma concat_nils {T} (ys : list (list T)) : List.concat ys = [] <-> Forall (eq []) ys.
Proof.
  induction ys as [|y ys IH]; cbn; [split; auto|]. split.
  - intros H. apply app_eq_nil in H as [-> H]. constructor; [reflexivity|tauto].
  - intros H. inversion H as [|? ? <- H']. cbn. tauto.
Qed.
Lemma lists_heads h qs bs ys : lists h qs bs ys -> Forall (fun q => match q with None => True | Some b => In b (List.concat bs) end) qs.
Proof.
  induction 1 as [|q b y qs bs ys R H IH]; constructor.
  - destruct q; [|exact I]. cbn. apply in_app_iff. left. exact (chain_head_in _ _ _ _ (rep_chain _ _ _ _ R)).
  - rewrite Forall_forall in *. intros q' Hq. specialize (IH q' Hq). destruct q'; [|exact I]. cbn. apply in_app_iff. auto.
Qed.
Lemma twice_frame h h' g : (forall a, In a (cells g) -> nth_error h' a = nth_error h a) -> twice h g -> twice h' g.
Proof.
  intros F. unfold twice. destruct (match g_xs g with [] => true | _ => _ end); [apply done_frame; exact F|]. intros [L P]. split; [|exact P]. intros a Ha. rewrite (F a Ha). apply L. exact Ha.
Qed.
Definition nil_dec {T} (y : list T) : {[] = y} + {[] <> y}.
Proof. destruct y; [left; reflexivity|right; discriminate]. Defined.
Definition harmless_dec (g : gjob) : {harmless g} + {~ harmless g}.
Proof.
  unfold harmless. destruct (g_xs g); [left; auto|]. destruct (Forall_dec (eq []) nil_dec (removelast (g_ys g))) as [H|H]; [left; auto|].
  right. intros [E|E]; [discriminate|auto].
Qed.
Lemma again n h0 : forall gs h, Forall (good h0) gs -> Forall (done h) gs -> NoDup (List.concat (map cells gs)) -> List.length h < n -> List.length h0 = List.length h ->
  (Forall harmless gs -> exists h', joinss n h (map call gs) = Done h' /\ List.length h' = List.length h /\ Forall (twice h') gs /\
     forall a, ~ In a (List.concat (map cells gs)) -> nth_error h' a = nth_error h a) /\
  (~ Forall harmless gs -> joinss n h (map call gs) = Diverge).
Proof.
  induction gs as [|g gs IH]; intros h G0 D N F Len0; [split; [intros _; exists h; auto|intros H; destruct H; constructor]|].
  inversion G0 as [|? ? [R0 L0] G0']; subst. inversion D as [|? ? D1 D']; subst. cbn [map List.concat] in N. apply NoDup_app_iff in N as (N1 & N2 & N3). cbn [map joinss]. unfold call at 1 3.
  assert (S : (harmless g -> exists h1, joins n h (g_p g) (g_qs g) = Done h1 /\ List.length h1 = List.length h /\ twice h1 g /\ forall a, ~ In a (cells g) -> nth_error h1 a = nth_error h a) /\
              (~ harmless g -> joins n h (g_p g) (g_qs g) = Diverge)).
  { unfold harmless, twice. pose proof D1 as D2. unfold done in D1. destruct (g_xs g) as [|x xs] eqn:E.
    - inversion R0 as [P|]; subst. rewrite joins_nil_receiver. split; [|intros Hh; destruct Hh; auto]. intros _. exists h. auto.
    - assert (X : (x :: xs) ++ List.concat (g_ys g) <> []) by discriminate.
      assert (Q : Forall (fun q => match q with None => True | Some b => In b (cells g) end) (g_qs g)).
      { pose proof (lists_heads _ _ _ _ L0) as Q. rewrite Forall_forall in *. intros q Hq. specialize (Q q Hq). destruct q; [|exact I]. apply in_app_iff. auto. }
      destruct (rejoins n (g_qs g) h (g_p g) (cells g) _ D1 X Q F) as (I1 & I2 & I3). rewrite (lists_nils _ _ _ _ L0) in I1, I2. rewrite (lists_single _ _ _ _ L0) in I2, I3. rewrite <- (concat_nils (g_ys g)) in I1, I2.
      split; [|intros H; apply I3; intros H'; apply H; right; exact H']. intros [H|H]; [discriminate|]. destruct (List.concat (g_ys g)) as [|y ys] eqn:Ey.
      + destruct (I1 eq_refl) as (h1 & J & L1 & R1 & Fr). exists h1. split; [exact J|]. split; [exact L1|]. split; [|exact Fr]. unfold done. rewrite E, Ey. exact R1.
      + destruct (I2 H ltac:(discriminate)) as (h1 & J & L1 & R1 & Fr). exists h1. split; [exact J|]. split; [exact L1|]. split; [|exact Fr]. split; [exact R1|].
        destruct (g_p g) as [a|]; [|inversion D1; congruence]. exists a. split; [reflexivity|]. exact (chain_head_in _ _ _ _ (rep_chain _ _ _ _ D1)). }
  destruct S as [S1 S2]. destruct (harmless_dec g) as [Hg|Hg].
  - destruct (S1 Hg) as (h1 & -> & L1 & T1 & Fr1). cbn [obind]. destruct (IH h1) as [I1 I2]; auto; try lia.
    + rewrite Forall_forall in *. intros g' Hg'. eapply done_frame; [|apply D'; exact Hg']. intros a Ha. apply Fr1. intros Hi. apply (N3 a Hi). apply in_concat. exists (cells g'). split; [apply in_map; exact Hg'|exact Ha].
    + split.
      * intros H. inversion H as [|? ? _ H']; subst. destruct (I1 H') as (h2 & J2 & L2 & T2 & Fr2). exists h2. split; [exact J2|]. split; [congruence|]. split; [constructor; [|exact T2]|].
        -- eapply twice_frame; [|exact T1]. intros a Ha. apply Fr2. apply N3. exact Ha.
        -- intros a Ha. cbn [map List.concat] in Ha. rewrite in_app_iff in Ha. rewrite Fr2, Fr1 by tauto. reflexivity.
      * intros H. apply I2. intros H'. apply H. constructor; assumption.
  - rewrite (S2 Hg). cbn [obind]. split; [intros H; inversion H; contradiction|reflexivity].
Qed.

(** ** More fuel does not change an outcome *)
Lemma join_loop_more : forall n (h : heap) p pos l, join_loop n h p pos l <> Diverge -> forall m, n <= m -> join_loop m h p pos l = join_loop n h p pos l.
Proof.
  induction n as [|n IH]; intros h p pos l H m Hm; [cbn in H; congruence|]. destruct m as [|m]; [lia|]. cbn [join_loop] in *. destruct p as [a|]; [|reflexivity].
  destruct (deref h (Some a)) as [[b c]| |]; cbn [obind] in *; [|reflexivity|reflexivity]. apply IH; [exact H|lia].
Qed.
Lemma join_more n (h : heap) p q : join n h p q <> Diverge -> forall m, n <= m -> join m h p q = join n h p q.
Proof.
  intros H m Hm. unfold join in *. destruct p as [a|]; [|reflexivity]. destruct (len h (Some a)); cbn [obind] in *; try reflexivity. destruct (len h q); cbn [obind] in *; try reflexivity.
  rewrite (join_loop_more n) with (m := m); [reflexivity| |exact Hm]. intros E. rewrite E in H. apply H. reflexivity.
Qed.
Lemma joins_more n : forall qs (h : heap) p, joins n h p qs <> Diverge -> forall m, n <= m -> joins m h p qs = joins n h p qs.
Proof.
  induction qs as [|q qs IH]; intros h p H m Hm; [reflexivity|]. cbn [joins] in *. rewrite (join_more n) with (m := m); [|intros E; rewrite E in H; apply H; reflexivity|exact Hm].
  destruct (join n h p q); cbn [obind] in *; try reflexivity. apply IH; assumption.
Qed.
Lemma joinss_more n : forall js (h : heap), joinss n h js <> Diverge -> forall m, n <= m -> joinss m h js = joinss n h js.
Proof.
  induction js as [|[p qs] js IH]; intros h H m Hm; [reflexivity|]. cbn [joinss] in *. rewrite (joins_more n) with (m := m); [|intros E; rewrite E in H; apply H; reflexivity|exact Hm].
  destruct (joins n h p qs); cbn [obind] in *; try reflexivity. apply IH; assumption.
Qed.

(** ** No nil dereference on a heap without dangling links *)
Definition inside (h : heap) (p : ptr) : Prop := match p with None => True | Some a => a < List.length h end.
Definition closed (h : heap) : Prop := forall a c, nth_error h a = Some c -> inside h (nxt c).
Lemma upd_closed (h : heap) a c : closed h -> inside h (nxt c) -> closed (upd h a c).
Proof.
  intros C I b d E. unfold inside. rewrite upd_length. destruct (Nat.eq_dec a b) as [<-|Hn].
  - assert (a < List.length h) by (rewrite <- (upd_length h a c); apply nth_error_Some; congruence). rewrite upd_same in E by assumption. injection E as <-. exact I.
  - rewrite upd_other in E by exact Hn. exact (C b d E).
Qed.
Lemma join_loop_closed : forall n (h : heap) p pos l, closed h -> inside h p -> l < List.length h ->
  match join_loop n h p pos l with Done (h', l') => closed h' /\ List.length h' = List.length h /\ l' < List.length h | NilPtr => False | Diverge => True end.
Proof.
  induction n as [|n IH]; intros h p pos l C I L; [exact Logic.I|]. cbn [join_loop]. destruct p as [a|]; [|auto]. cbn [deref inside] in *.
  destruct (nth_error h a) as [c|] eqn:E; [|apply nth_error_None in E; lia]. cbn [obind].
  specialize (IH (upd h a (mkN (data c) (nxt c) pos)) (nxt c) (pos - 1)%Z a). rewrite upd_length in IH. unfold inside in IH at 1. rewrite upd_length in IH. apply IH; [|apply (C a c E)|exact I].
  apply upd_closed; [exact C|]. exact (C a c E).
Qed.
Lemma join_closed n (h : heap) p q : closed h -> inside h p -> inside h q ->
  match join n h p q with Done h' => closed h' /\ List.length h' = List.length h | NilPtr => False | Diverge => True end.
Proof.
  intros C P Q. unfold join. destruct p as [a|]; [|auto]. cbn [inside] in P. unfold len at 1. cbn [deref]. destruct (nth_error h a) as [c|] eqn:E; [|apply nth_error_None in E; lia]. cbn [obind].
  assert (Q' : exists z, len h q = Done z).
  { destruct q as [b|]; [|eexists; reflexivity]. unfold len. cbn [deref inside] in *. destruct (nth_error h b) as [d|] eqn:Eb; [|apply nth_error_None in Eb; lia]. eexists. reflexivity. }
  destruct Q' as (z & ->). cbn [obind]. pose proof (join_loop_closed n h (Some a) (npos c + 1 + z - 1)%Z a C P P) as H. destruct (join_loop n h (Some a) _ a) as [[h' l']| |]; cbn [obind]; [|exact H|exact Logic.I].
  destruct H as (C' & L' & Hl). cbn [deref]. destruct (nth_error h' l') as [d|] eqn:Ed; [|apply nth_error_None in Ed; lia]. cbn [obind]. rewrite upd_length. split; [|exact L'].
  apply upd_closed; [exact C'|]. cbn [nxt]. unfold inside in *. rewrite L'. exact Q.
Qed.
End Heap.
