(** * ParserWanted: what a parse error says is wanted is indeed accepted at that place. *)
From Verif Require Import Base Utf8 Lexer AST Parser Grammar GrammarProps ParserWp.
Local Open Scope p_scope.

(** What an error message lists as wanted: tokens of a kind (with one of some literals, or any), or a phrase. *)
Inductive wish := Tok (k : kind) (ls : list bytes) | Phrase (s : bytes).
Definition render (w : wish) : bytes := match w with Tok k ls => expected k ls | Phrase s => s end.
Definition fits (k : kind) (ls : list bytes) (x : token) : Prop := tkind x = k /\ (ls = [] \/ In (tlit x) ls).
Definition ends_string (s : list token) : Prop := exists s0 u, s = s0 ++ [u] /\ tkind u = KString.
Definition other (e : bytes) (s : list token) : Prop :=
  e = B "TODO: see `parseDefinition`" \/
  exists s0 u, s = s0 ++ [u] /\
    ((inb (tlit u) [B "false"; B "true"; B "null"] = true /\ tkind u = KName /\ e = unexpected u [expected KName [B "valid enum value"]]) \/ (tkind u = KInt /\ e = number_error (B "Atoi") (tlit u)) \/
     (tkind u = KFloat /\ e = number_error (B "ParseFloat") (tlit u))).

(** ** All states reached are suffixes. *)
Definition mono {A} (m : P A) : Prop := forall ts, match m ts with POk _ u | PErr _ u => suffix u ts | PCrash _ => True end.
(** the result leaves at most [l] *)
Definition beyond {A} (l : list token) (x : pres A) : Prop := match x with POk _ u | PErr _ u => suffix u l | PCrash _ => True end.
(** never succeeds without consuming the first token *)
Definition strict {A} (m : P A) : Prop := forall x l, (exists e, m (x :: l) = PErr e (x :: l)) \/ beyond l (m (x :: l)).
(** consumes a first token that satisfies [p] *)
Definition eats {A} (p : token -> bool) (m : P A) : Prop := forall x l, p x = true -> beyond l (m (x :: l)).

Lemma suffix_cons {x : token} {l u} : suffix u l -> suffix u (x :: l).
Proof. intros (p & ->). exists (x :: p). reflexivity. Qed.
Lemma suffix_cases u (x : token) l : suffix u (x :: l) -> u = x :: l \/ suffix u l.
Proof. intros ([|y p] & E); [left; symmetry; exact E|right]. injection E as <- ->. exists p. reflexivity. Qed.
Lemma mono_bind {A C} (m : P A) (k : A -> P C) : mono m -> (forall a, mono (k a)) -> mono (pbind m k).
Proof.
  intros Hm Hk ts. specialize (Hm ts). unfold pbind. destruct (m ts) as [a u|e u|c]; [|exact Hm|exact I]. specialize (Hk a u).
  destruct (k a u); [eapply suffix_trans; eassumption|eapply suffix_trans; eassumption|exact I].
Qed.
Lemma beyond_bind {A C} l (m : P A) (k : A -> P C) ts : beyond l (m ts) -> (forall a, mono (k a)) -> beyond l (pbind m k ts).
Proof. unfold pbind. destruct (m ts) as [a u|e u|c]; intros H Hk; [|exact H|exact I]. cbn in H. specialize (Hk a u). destruct (k a u); cbn; [eapply suffix_trans; eassumption..|exact I]. Qed.
Lemma eats_bind {A C} p (m : P A) (k : A -> P C) : eats p m -> (forall a, mono (k a)) -> eats p (pbind m k).
Proof. intros H Hk x l Hp. apply beyond_bind; [apply H, Hp|exact Hk]. Qed.
Lemma strict_bind {A C} (m : P A) (k : A -> P C) : strict m -> (forall a, mono (k a)) -> strict (pbind m k).
Proof.
  intros H Hk x l. destruct (H x l) as [(e & E)|E]; [left; exists e; unfold pbind; rewrite E; reflexivity|right]. apply beyond_bind; assumption.
Qed.
Lemma strict_later {A C} (m : P A) (k : A -> P C) : mono m -> (forall a, mono (k a)) -> (forall a, strict (k a)) -> strict (pbind m k).
Proof.
  intros Hm Hmk Hk x l. pose proof (Hm (x :: l)) as H. unfold pbind. destruct (m (x :: l)) as [a u|e u|c].
  - destruct (suffix_cases _ _ _ H) as [->|H1]; [apply Hk|right]. specialize (Hmk a u). destruct (k a u); cbn; [eapply suffix_trans; eassumption..|exact I].
  - destruct (suffix_cases _ _ _ H) as [->|H1]; [left; eauto|right; exact H1].
  - right. exact I.
Qed.
Lemma mono_ret {A} (a : A) : mono (pret a).
Proof. intros ts. apply suffix_refl. Qed.
Lemma mono_fail {A} e : mono (pfail e : P A).
Proof. intros ts. apply suffix_refl. Qed.
Lemma mono_crash {A} c : mono (pcrash c : P A).
Proof. intros ts. exact I. Qed.
Lemma mono_tok : mono tok.
Proof. intros [|x l]; [exact I|apply suffix_refl]. Qed.
Lemma mono_advance : mono advance.
Proof. intros [|x [|y l]]; [exact I|exact I|]. exists [x]. reflexivity. Qed.
Lemma mono_if {A} (b : bool) (m1 m2 : P A) : mono m1 -> mono m2 -> mono (if b then m1 else m2).
Proof. destruct b; auto. Qed.
Lemma mono_perr {A} ws : mono (perr ws : P A).
Proof. apply mono_bind; [apply mono_tok|]. intros; apply mono_fail. Qed.
Lemma mono_peek p : mono (peek p).
Proof. apply mono_bind; [apply mono_tok|]. intros; apply mono_ret. Qed.
Lemma mono_skip p : mono (skip p).
Proof. apply mono_bind; [apply mono_tok|]. intros x. destruct (p x); [apply mono_bind; [apply mono_advance|intros; apply mono_ret]|apply mono_ret]. Qed.
Lemma mono_consume p : mono (consume p).
Proof. apply mono_bind; [apply mono_tok|]. intros x. destruct (p x); [apply mono_bind; [apply mono_advance|intros; apply mono_ret]|apply mono_ret]. Qed.
Lemma mono_must p w : mono (must p w).
Proof. apply mono_bind; [apply mono_tok|]. intros x. destruct (p x); [apply mono_bind; [apply mono_advance|intros; apply mono_ret]|apply mono_fail]. Qed.
Lemma mono_loop {A} n c (b : P A) : mono c -> mono b -> mono (loop_until n c b).
Proof. intros Hc Hb. induction n; cbn [loop_until]; [apply mono_crash|]. apply mono_bind; [exact Hc|]. intros []; [apply mono_ret|]. apply mono_bind; [exact Hb|]. intros a. apply mono_bind; [exact IHn|]. intros; apply mono_ret. Qed.
Lemma mono_do {A} n (b : P A) c : mono b -> mono c -> mono (do_loop n b c).
Proof. intros Hb Hc. induction n; cbn [do_loop]; [apply mono_crash|]. apply mono_bind; [exact Hb|]. intros a. apply mono_bind; [exact Hc|]. intros []; [apply mono_ret|]. apply mono_bind; [exact IHn|]. intros; apply mono_ret. Qed.
Lemma mono_not m : mono m -> mono (pnot m).
Proof. intros H. apply mono_bind; [exact H|]. intros; apply mono_ret. Qed.
Lemma mono_need k l : mono (need k l).
Proof. apply mono_bind; [apply mono_skip|]. intros []; [apply mono_ret|apply mono_perr]. Qed.
Lemma mono_at_close c : mono (at_close c).
Proof. apply mono_bind; [apply mono_peek|]. intros []; [apply mono_ret|apply mono_peek]. Qed.

(** The first token is consumed or refused. *)
Lemma advance_beyond {A} (x : token) l (k : unit -> P A) : (forall a, mono (k a)) -> beyond l (pbind advance k (x :: l)).
Proof. intros Hk. unfold pbind. destruct l as [|y l]; [exact I|]. cbn [advance]. specialize (Hk tt (y :: l)). destruct (k tt (y :: l)); [exact Hk..|exact I]. Qed.
Lemma strict_must p w : strict (must p w).
Proof.
  intros x l. unfold must. change (pbind tok ?k (x :: l)) with (k x (x :: l)). cbv beta. destruct (p x); [right; apply advance_beyond; intros; apply mono_ret|left; eexists; reflexivity].
Qed.
Lemma eats_must p w : eats p (must p w).
Proof. intros x l Hp. unfold must. change (pbind tok ?k (x :: l)) with (k x (x :: l)). cbv beta. rewrite Hp. apply advance_beyond. intros; apply mono_ret. Qed.
Lemma eats_skip p : eats p (skip p).
Proof. intros x l Hp. unfold skip. change (pbind tok ?k (x :: l)) with (k x (x :: l)). cbv beta. rewrite Hp. apply advance_beyond. intros; apply mono_ret. Qed.
Lemma eats_consume p : eats p (consume p).
Proof. intros x l Hp. unfold consume. change (pbind tok ?k (x :: l)) with (k x (x :: l)). cbv beta. rewrite Hp. apply advance_beyond. intros; apply mono_ret. Qed.
Lemma strict_perr {A} ws : strict (perr ws : P A).
Proof. intros x l. left. eexists. reflexivity. Qed.
Lemma strict_fail {A} e : strict (pfail e : P A).
Proof. intros x l. left. eexists. reflexivity. Qed.
Lemma strict_crash {A} c : strict (pcrash c : P A).
Proof. intros x l. right. exact I. Qed.
Lemma strict_skip_else {A} p (m : bool -> P A) : (forall b, mono (m b)) -> strict (m false) -> strict (pbind (skip p) m).
Proof.
  intros Hm Hs x l. destruct (p x) eqn:Ep; [right; apply beyond_bind; [apply eats_skip, Ep|exact Hm]|].
  unfold pbind, skip. change (pbind tok ?k (x :: l)) with (k x (x :: l)). cbv beta. rewrite Ep. cbn. apply Hs.
Qed.
Lemma strict_need k l : strict (need k l).
Proof. apply strict_skip_else; [|apply strict_perr]. intros []; [apply mono_ret|apply mono_perr]. Qed.
Lemma eats_need k l : eats (is1 k (B l)) (need k l).
Proof. apply eats_bind; [apply eats_skip|]. intros []; [apply mono_ret|apply mono_perr]. Qed.
Lemma eats_strict {A} (m : P A) p : strict m -> (forall x l e, p x = true -> m (x :: l) <> PErr e (x :: l)) -> eats p m.
Proof. intros H N x l Hp. destruct (H x l) as [(e & E)|E]; [elim (N x l e Hp E)|exact E]. Qed.

(** The literals in the lists are plain: no bar and no quote, so that the rendering can be read back. *)
Definition plain_wish (w : wish) : bool :=
  match w with
  | Tok k ls => negb (kind_eqb k KEOF) && negb (kind_eqb k KIllegal) &&
      forallb (fun l => negb (beqb l []) && negb (existsb (fun b => Ascii.eqb b "|" || Ascii.eqb b "'") l)) ls
  | Phrase s => beqb s (B "NamedType")
  end.

Section Swap.
(** Two token lists that are the same up to the token [t] of the one and [t'] of the other. *)
Variables (t t' : token) (r r' : list token).
Hypothesis Heof : tkind t' <> KEOF.
Hypothesis Hill : tkind t' <> KIllegal.
(** [t'] comes from a text: these are not names *)
Hypothesis Hreal : tkind t' = KName -> tlit t' <> B "!on" /\ tlit t' <> B "valid enum value".
Notation passed := (beyond r').
Definition says {A} (e : bytes) (s : list token) (x : pres A) : Prop :=
  (exists W, e = unexpected t (map render W) /\ forallb plain_wish W = true /\
     forall k ls, In (Tok k ls) W -> fits k ls t' -> passed x \/ ends_string s) \/ other e s.
Definition rel_at {A} (s : list token) (m : P A) : Prop :=
  (forall a q, m (s ++ t :: r) = POk a (q ++ t :: r) -> q <> [] -> m (s ++ t' :: r') = POk a (q ++ t' :: r')) /\
  (forall e q, m (s ++ t :: r) = PErr e (q ++ t :: r) -> q <> [] -> m (s ++ t' :: r') = PErr e (q ++ t' :: r')) /\
  (forall a, m (s ++ t :: r) = POk a (t :: r) -> m (s ++ t' :: r') = POk a (t' :: r') \/ passed (m (s ++ t' :: r'))) /\
  (forall e, m (s ++ t :: r) = PErr e (t :: r) ->
     ((exists e', m (s ++ t' :: r') = PErr e' (t' :: r')) \/ passed (m (s ++ t' :: r'))) /\ says e s (m (s ++ t' :: r'))).

Lemma ends_lift p s : ends_string s -> ends_string (p ++ s).
Proof. intros (s0 & u & -> & H). exists (p ++ s0), u. split; [apply app_assoc|exact H]. Qed.
Lemma other_lift e p s : other e s -> other e (p ++ s).
Proof. intros [H|(s0 & u & -> & H)]; [left; exact H|right]. exists (p ++ s0), u. split; [apply app_assoc|exact H]. Qed.
Lemma says_lift {A} e p s (x : pres A) : says e s x -> says e (p ++ s) x.
Proof.
  intros [(W & E & Hp & H)|H]; [left|right; apply other_lift, H]. exists W. split; [exact E|]. split; [exact Hp|]. intros k ls Hi Hf. destruct (H k ls Hi Hf); [left; assumption|right; apply ends_lift; assumption].
Qed.
Lemma middle (s q u : list token) (x : token) l : suffix u (s ++ x :: l) -> suffix (q ++ x :: l) u -> exists p1 p2, u = (p2 ++ q) ++ x :: l /\ s = p1 ++ p2 ++ q.
Proof.
  intros (p1 & E) (p2 & ->). exists p1, p2. split; [apply app_assoc|]. rewrite !app_assoc in E. apply app_inv_tail in E. rewrite E, app_assoc. reflexivity.
Qed.
(** a first run that stays at [t], and a second one that consumes [t'] *)
Definition stays {A} (x : pres A) : Prop :=
  match x with
  | POk _ u => u = t :: r \/ suffix u r
  | PErr e u => u = t :: r /\ (other e [] \/ exists W, e = unexpected t (map render W) /\ forallb plain_wish W = true) \/ suffix u r
  | PCrash _ => True
  end.
Lemma rel_at_stays {A} (m : P A) : mono m -> rel_at [] m -> stays (m (t :: r)).
Proof.
  intros M (H1 & H2 & H3 & H4). specialize (M (t :: r)). cbn [app] in *. destruct (m (t :: r)) as [a u|e u|c]; [| |exact I]; destruct (suffix_cases _ _ _ M) as [->|Hs]; cbn; auto.
  left. split; [reflexivity|]. destruct (H4 e eq_refl) as [_ [(W & E & Hpl & _)|Ho]]; [right; exists W; auto|left; exact Ho].
Qed.
(** [relc c m]: the runs of [m] are related, where the token is the first one only if [c] *)
Definition relc {A} (c : Prop) (m : P A) : Prop := mono m /\ (forall s, s <> [] -> rel_at s m) /\ (c -> rel_at [] m) /\ stays (m (t :: r)).
Definition rel {A} (m : P A) : Prop := mono m /\ forall s, rel_at s m.
Lemma rel_stays {A} (m : P A) : rel m -> stays (m (t :: r)).
Proof. intros [H1 H2]. apply rel_at_stays; auto. Qed.
Lemma rel_relc {A} c (m : P A) : rel m -> relc c m.
Proof. intros H. pose proof (rel_stays m H). destruct H as [H1 H2]. split; [exact H1|]. split; [auto|]. split; auto. Qed.
Lemma relc_rel {A} (c : Prop) (m : P A) : c -> relc c m -> rel m.
Proof. intros Hc (H1 & H2 & H3 & _). split; [exact H1|]. intros [|x s]; [auto|]. apply H2. discriminate. Qed.
Lemma stays_mono {A} (m : P A) u : mono m -> suffix u r -> stays (m u).
Proof. intros M Hs. specialize (M u). destruct (m u); cbn; [right|right|exact I]; eapply suffix_trans; eassumption. Qed.
Lemma stays_bind {A C} (m : P A) (k : A -> P C) : stays (m (t :: r)) -> (forall a, mono (k a)) -> (forall a, m (t :: r) = POk a (t :: r) -> stays (k a (t :: r))) -> stays (pbind m k (t :: r)).
Proof.
  unfold pbind. destruct (m (t :: r)) as [a u|e u|c]; intros H Mk Hk; [|exact H|exact I]. destruct H as [->|H]; [apply Hk; reflexivity|apply stays_mono; auto].
Qed.
Lemma bind_at {A C} s (m : P A) (k : A -> P C) : mono m -> rel_at s m -> (forall a, rel (k a)) -> rel_at s (pbind m k).
Proof.
  intros Mm (H1 & H2 & H3 & H4) Hk. unfold rel_at.
  assert (Mk : forall a, mono (k a)) by (intros a; apply Hk). pose proof (Mm (s ++ t :: r)) as Ms. unfold pbind at 1 3 5 8.
  destruct (m (s ++ t :: r)) as [a u|e u|c] eqn:Em.
  - pose proof (Mk a u) as Mu.
    assert (forall q, suffix (q ++ t :: r) u -> exists p1 q', u = q' ++ t :: r /\ s = p1 ++ q' /\ (q <> [] -> q' <> [])) as Hu.
    { intros q Hq. destruct (middle _ _ _ _ _ Ms Hq) as (p1 & p2 & -> & ->). exists p1, (p2 ++ q). split; [reflexivity|]. split; [reflexivity|]. intros Hn Hz. apply app_eq_nil in Hz. tauto. }
    repeat split.
    + intros b q E Hq. rewrite E in Mu. destruct (Hu q Mu) as (p1 & q' & -> & -> & Hn). unfold pbind. rewrite (H1 a q' eq_refl (Hn Hq)). exact (proj1 (proj2 (Hk a) q') b q E Hq).
    + intros b q E Hq. rewrite E in Mu. destruct (Hu q Mu) as (p1 & q' & -> & -> & Hn). unfold pbind. rewrite (H1 a q' eq_refl (Hn Hq)). exact (proj1 (proj2 (proj2 (Hk a) q')) b q E Hq).
    + intros b E. rewrite E in Mu. destruct (Hu [] Mu) as (p1 & q' & -> & -> & Hn). destruct q' as [|x q'].
      * destruct (H3 a eq_refl) as [E2|Hp]; [|right; apply beyond_bind; assumption]. unfold pbind. rewrite E2. exact (proj1 (proj2 (proj2 (proj2 (Hk a) []))) b E).
      * unfold pbind. rewrite (H1 a (x :: q') eq_refl ltac:(discriminate)). exact (proj1 (proj2 (proj2 (proj2 (Hk a) (x :: q')))) b E).
    + rewrite H in Mu. destruct (Hu [] Mu) as (p1 & q' & -> & -> & Hn). destruct q' as [|x q'].
      * destruct (H3 a eq_refl) as [E2|Hp]; [|right; apply beyond_bind; assumption]. unfold pbind. rewrite E2. exact (proj1 (proj2 (proj2 (proj2 (proj2 (Hk a) []))) e H)).
      * unfold pbind. rewrite (H1 a (x :: q') eq_refl ltac:(discriminate)). exact (proj1 (proj2 (proj2 (proj2 (proj2 (Hk a) (x :: q')))) e H)).
    + rewrite H in Mu. destruct (Hu [] Mu) as (p1 & q' & -> & -> & Hn). apply says_lift. destruct q' as [|x q'].
      * destruct (H3 a eq_refl) as [E2|Hp].
        -- unfold pbind. rewrite E2. exact (proj2 (proj2 (proj2 (proj2 (proj2 (Hk a) []))) e H)).
        -- destruct (proj2 (proj2 (proj2 (proj2 (proj2 (Hk a) []))) e H)) as [(W & E & Hpl & _)|Ho]; [left|right; exact Ho]. exists W. split; [exact E|]. split; [exact Hpl|]. intros. left. apply beyond_bind; assumption.
      * unfold pbind. rewrite (H1 a (x :: q') eq_refl ltac:(discriminate)). exact (proj2 (proj2 (proj2 (proj2 (proj2 (Hk a) (x :: q')))) e H)).
  - repeat split; try discriminate.
    + intros e' q E Hq. injection E as -> ->. unfold pbind. rewrite (H2 e' q eq_refl Hq). reflexivity.
    + injection H as -> ->. destruct (H4 e0 eq_refl) as [[(e' & E)|Hp] _]; [left; exists e'; unfold pbind; rewrite E; reflexivity|right; apply beyond_bind; assumption].
    + injection H as -> ->. destruct (H4 e0 eq_refl) as [_ [(W & E & Hpl & Hs)|Ho]]; [left|right; exact Ho]. exists W. split; [exact E|]. split; [exact Hpl|]. intros kd ls Hi Hf.
      destruct (Hs kd ls Hi Hf) as [Hp|He]; [left; apply beyond_bind; assumption|right; exact He].
  - repeat split; discriminate.
Qed.
Lemma relc_bind {A C} c (m : P A) (k : A -> P C) : relc c m -> (forall a, rel (k a)) -> relc c (pbind m k).
Proof.
  intros (H1 & H2 & H3 & H4) Hk. split; [apply mono_bind; [exact H1|intros a; apply Hk]|]. split; [|split]; intros; [apply bind_at; auto..|].
  apply stays_bind; [exact H4|intros a; apply Hk|]. intros a _. apply rel_stays, Hk.
Qed.
Lemma rel_bind {A C} (m : P A) (k : A -> P C) : rel m -> (forall a, rel (k a)) -> rel (pbind m k).
Proof. intros H Hk. apply (relc_rel True); [exact I|]. apply relc_bind; [apply rel_relc, H|exact Hk]. Qed.
Lemma list_loop (x : token) l q : x :: l = q ++ x :: l -> q = [].
Proof. intros H. apply (f_equal (@List.length token)) in H. rewrite app_length in H. destruct q; [reflexivity|cbn in H; lia]. Qed.
Lemma app_loop (s q : list token) x l : s ++ x :: l = q ++ x :: l -> s = q.
Proof. apply app_inv_tail. Qed.
Lemma rel_ret {A} (a : A) : rel (pret a).
Proof.
  split; [apply mono_ret|]. intros s. unfold pret. repeat split; try discriminate.
  - intros b q E Hq. injection E as -> E. apply app_loop in E. subst. reflexivity.
  - intros b E. injection E as -> E. change (t :: r) with ([] ++ t :: r) in E at 2. apply app_loop in E. subst. left. reflexivity.
Qed.
Lemma rel_crash {A} c : rel (pcrash c : P A).
Proof. split; [apply mono_crash|]. intros s. repeat split; discriminate. Qed.
(** a failure that is not about the current token *)
Lemma rel_other {A} e : (forall s, other e s) -> rel (pfail e : P A).
Proof.
  intros Ho. split; [apply mono_fail|]. intros s. unfold pfail. repeat split; try discriminate.
  - intros b q E Hq. injection E as -> E. apply app_loop in E. subst. reflexivity.
  - injection H as -> E. change (t :: r) with ([] ++ t :: r) in E at 2. apply app_loop in E. subst. left. eexists. reflexivity.
  - right. injection H as -> E. apply Ho.
Qed.
Lemma relc_perr {A} W : forallb plain_wish W = true -> relc (forall k ls, In (Tok k ls) W -> fits k ls t' -> False) (perr (map render W) : P A).
Proof.
  intros Hpl. split; [apply mono_perr|]. split.
  - intros [|x s] Hs; [congruence|]. unfold rel_at. cbn [app perr]; unfold perr, pbind, pfail; cbn [tok]; repeat split; try discriminate.
    + intros e q E Hq. injection E as <- E. change (x :: s ++ t :: r) with ((x :: s) ++ t :: r) in E. apply app_loop in E. subst. reflexivity.
    + exfalso. injection H as _ _ H. apply (f_equal (@List.length token)) in H. rewrite app_length in H. cbn in H. lia.
    + exfalso. injection H as _ _ H. apply (f_equal (@List.length token)) in H. rewrite app_length in H. cbn in H. lia.
  - split; [|left; split; [reflexivity|]; right; exists W; auto]. intros Hw. unfold rel_at. cbn [app perr]; unfold perr, pbind, pfail; cbn [tok]; repeat split; try discriminate.
    + intros e q E Hq. injection E as _ E. symmetry in E. exfalso. apply Hq. eapply list_loop. symmetry. exact E.
    + left. eexists. reflexivity.
    + left. injection H as <-. exists W. split; [reflexivity|]. split; [exact Hpl|]. intros k ls Hi Hf. elim (Hw k ls Hi Hf).
Qed.
(** ** Testing the current token *)
Lemma tok_bind {A} (k : token -> P A) x l : pbind tok k (x :: l) = k x (x :: l).
Proof. reflexivity. Qed.
(** same head: the runs go on alike *)
Lemma rel_at_step {A} (m m1 : P A) x s : (forall l, l <> [] -> m (x :: l) = m1 l) -> rel_at s m1 -> rel_at (x :: s) m.
Proof.
  intros E (H1 & H2 & H3 & H4). unfold rel_at. assert (N : forall y (l : list token), s ++ y :: l <> []) by (intros y l Z; apply app_eq_nil in Z; destruct Z; discriminate).
  cbn [app]. rewrite !E by apply N. split; [exact H1|]. split; [exact H2|]. split; [exact H3|]. intros e He. destruct (H4 e He) as [Ha Hb]. split; [exact Ha|]. exact (says_lift e [x] s _ Hb).
Qed.
Lemma rel_at_same {A} (m m1 : P A) s : (forall y l, m (s ++ y :: l) = m1 (s ++ y :: l)) -> rel_at s m1 -> rel_at s m.
Proof. intros E H. unfold rel_at. rewrite !E. exact H. Qed.
(** a first run that consumes [t] is related to anything *)
Lemma rel_at_eaten {A} (m : P A) : beyond r (m (t :: r)) -> rel_at [] m.
Proof.
  intros H. assert (N : forall q, ~ suffix (q ++ t :: r) r). { intros q (p & E). apply (f_equal (@List.length token)) in E. rewrite !app_length in E. cbn in E. lia. }
  unfold rel_at. cbn [app]. destruct (m (t :: r)) as [a u|e u|c]; cbn in H; repeat split; try discriminate.
  - intros b q E. injection E as -> ->. elim (N q H).
  - intros b E. injection E as -> ->. elim (N [] H).
  - intros b q E. injection E as -> ->. elim (N q H).
  - injection H0 as -> ->. elim (N [] H).
  - injection H0 as -> ->. elim (N [] H).
Qed.
Lemma rel_at_passed {A} (m : P A) : stays (m (t :: r)) -> passed (m (t' :: r')) -> rel_at [] m.
Proof.
  intros H Hp. assert (N : forall q, ~ suffix (q ++ t :: r) r). { intros q (p & E). apply (f_equal (@List.length token)) in E. rewrite !app_length in E. cbn in E. lia. }
  unfold rel_at. cbn [app]. destruct (m (t :: r)) as [a u|e u|c]; cbn in H; repeat split; try discriminate; auto.
  - intros b q E Hq. injection E as -> ->. destruct H as [H|H]; [exfalso; apply Hq; eapply list_loop; symmetry; exact H|elim (N q H)].
  - intros b q E Hq. injection E as -> ->. destruct H as [[H _]|H]; [exfalso; apply Hq; eapply list_loop; symmetry; exact H|elim (N q H)].
  - injection H0 as -> ->. destruct H as [[_ [Ho|(W & -> & Hpl)]]|H]; [right; exact Ho|left|elim (N [] H)]. exists W. split; [reflexivity|]. split; [exact Hpl|]. auto.
Qed.
Lemma beyond_stays {A} (x : pres A) : beyond r x -> stays x.
Proof. destruct x; cbn; auto. Qed.
Lemma rel_at_eq {A} (m m1 : P A) s : m (s ++ t :: r) = m1 (s ++ t :: r) -> m (s ++ t' :: r') = m1 (s ++ t' :: r') -> rel_at s m1 -> rel_at s m.
Proof. intros E1 E2 H. unfold rel_at. rewrite E1, E2. exact H. Qed.
Lemma skip_yes p x l : p x = true -> l <> [] -> skip p (x :: l) = POk true l.
Proof. intros Hp Hl. unfold skip. rewrite tok_bind, Hp. destruct l; [congruence|reflexivity]. Qed.
Lemma skip_no p x l : p x = false -> skip p (x :: l) = POk false (x :: l).
Proof. intros Hp. unfold skip. rewrite tok_bind, Hp. reflexivity. Qed.
Lemma consume_yes p x l : p x = true -> l <> [] -> consume p (x :: l) = POk (Some x) l.
Proof. intros Hp Hl. unfold consume. rewrite tok_bind, Hp. destruct l; [congruence|reflexivity]. Qed.
Lemma consume_no p x l : p x = false -> consume p (x :: l) = POk None (x :: l).
Proof. intros Hp. unfold consume. rewrite tok_bind, Hp. reflexivity. Qed.
Lemma must_yes p w x l : p x = true -> l <> [] -> must p w (x :: l) = POk x l.
Proof. intros Hp Hl. unfold must. rewrite tok_bind, Hp. destruct l; [congruence|reflexivity]. Qed.
Lemma must_no p w x l : p x = false -> must p w (x :: l) = PErr (unexpected x [w]) (x :: l).
Proof. intros Hp. unfold must. rewrite tok_bind, Hp. reflexivity. Qed.
Lemma peek_is p x l : peek p (x :: l) = POk (p x) (x :: l).
Proof. reflexivity. Qed.

Lemma relc_skip_bind {A} (c : Prop) p (k : bool -> P A) : rel (k true) -> relc (c /\ p t' = false) (k false) -> relc c (pbind (skip p) k).
Proof.
  intros H1 (M2 & H2 & H2' & St). assert (Mk : forall b, mono (k b)) by (intros []; [apply H1|exact M2]).
  assert (No : forall x l, p x = false -> pbind (skip p) k (x :: l) = k false (x :: l)) by (intros x l Hp; unfold pbind; rewrite skip_no by exact Hp; reflexivity).
  split; [apply mono_bind; [apply mono_skip|exact Mk]|]. split; [|split].
  - intros [|x s] Hs; [congruence|]. destruct (p x) eqn:Hp.
    + eapply rel_at_step; [|apply H1]. intros l Hl. unfold pbind. rewrite skip_yes by assumption. reflexivity.
    + eapply rel_at_eq; [apply No, Hp..|]. apply H2. discriminate.
  - intros Hc. destruct (p t) eqn:Hp; [apply rel_at_eaten, beyond_bind; [apply eats_skip, Hp|exact Mk]|]. destruct (p t') eqn:Hp'.
    + apply rel_at_passed; [rewrite No by exact Hp; exact St|]. apply beyond_bind; [apply eats_skip, Hp'|exact Mk].
    + eapply rel_at_eq; [apply No; assumption..|]. apply H2'. auto.
  - destruct (p t) eqn:Hp; [apply beyond_stays, beyond_bind; [apply eats_skip, Hp|exact Mk]|rewrite No by exact Hp; exact St].
Qed.
(** what may follow a consumed token: something related, or a complaint about that token *)
Definition follows {A} (x : token) (m : P A) : Prop := rel m \/ exists e, m = pfail e /\ other e [x].
Lemma follows_mono {A} x (m : P A) : follows x m -> mono m.
Proof. intros [H|(e & -> & _)]; [apply H|apply mono_fail]. Qed.
Lemma rel_at_follow {A} (m m1 : P A) x s : (forall l, l <> [] -> m (x :: l) = m1 l) -> follows x m1 -> rel_at (x :: s) m.
Proof.
  intros E [H|(e & -> & Ho)]; [eapply rel_at_step; [exact E|apply H]|].
  assert (N : forall y (l : list token), s ++ y :: l <> []) by (intros y l Z; apply app_eq_nil in Z; destruct Z; discriminate).
  unfold rel_at. cbn [app]. rewrite !E by apply N. unfold pfail. repeat split; try discriminate.
  - intros e' q X Hq. injection X as -> X. apply app_loop in X. subst. reflexivity.
  - injection H as -> X. change (t :: r) with ([] ++ t :: r) in X at 2. apply app_loop in X. subst. left. eexists. reflexivity.
  - right. injection H as -> X. change (t :: r) with ([] ++ t :: r) in X at 2. apply app_loop in X. subst. exact Ho.
Qed.
Lemma relc_consume_bind {A} (c : Prop) p (k : option token -> P A) : (forall x, p x = true -> follows x (k (Some x))) -> relc (c /\ p t' = false) (k None) ->
  (forall x, mono (k (Some x))) -> relc c (pbind (consume p) k).
Proof.
  intros H1 (M2 & H2 & H2' & St) Ms. assert (Mk : forall b, mono (k b)) by (intros [x|]; [apply Ms|exact M2]).
  assert (No : forall x l, p x = false -> pbind (consume p) k (x :: l) = k None (x :: l)) by (intros x l Hp; unfold pbind; rewrite consume_no by exact Hp; reflexivity).
  split; [apply mono_bind; [apply mono_consume|exact Mk]|]. split; [|split].
  - intros [|x s] Hs; [congruence|]. destruct (p x) eqn:Hp.
    + eapply rel_at_follow; [|apply H1, Hp]. intros l Hl. unfold pbind. rewrite consume_yes by assumption. reflexivity.
    + eapply rel_at_eq; [apply No, Hp..|]. apply H2. discriminate.
  - intros Hc. destruct (p t) eqn:Hp; [apply rel_at_eaten, beyond_bind; [apply eats_consume, Hp|exact Mk]|]. destruct (p t') eqn:Hp'.
    + apply rel_at_passed; [rewrite No by exact Hp; exact St|]. apply beyond_bind; [apply eats_consume, Hp'|exact Mk].
    + eapply rel_at_eq; [apply No; assumption..|]. apply H2'. auto.
  - destruct (p t) eqn:Hp; [apply beyond_stays, beyond_bind; [apply eats_consume, Hp|exact Mk]|rewrite No by exact Hp; exact St].
Qed.
Lemma rel_must_bind {A} p kd ls (k : token -> P A) : plain_wish (Tok kd ls) = true -> (forall x, fits kd ls x -> p x = true) -> (forall x, p x = true -> follows x (k x)) -> (forall x, mono (k x)) ->
  rel (pbind (must p (expected kd ls)) k).
Proof.
  intros Hpl Hf H1 Mk.
  assert (No : forall x l, p x = false -> pbind (must p (expected kd ls)) k (x :: l) = PErr (unexpected x [expected kd ls]) (x :: l)) by (intros x l Hp; unfold pbind; rewrite must_no by exact Hp; reflexivity).
  split; [apply mono_bind; [apply mono_must|exact Mk]|]. intros [|x s].
  - destruct (p t) eqn:Hp; [apply rel_at_eaten, beyond_bind; [apply eats_must, Hp|exact Mk]|]. destruct (p t') eqn:Hp'.
    + apply rel_at_passed; [rewrite No by exact Hp|apply beyond_bind; [apply eats_must, Hp'|exact Mk]]. left. split; [reflexivity|]. right. exists [Tok kd ls]. split; [reflexivity|]. cbn [forallb]. rewrite Hpl. reflexivity.
    + unfold rel_at. cbn [app]. rewrite !No by assumption. repeat split; try discriminate.
      * intros e q E Hq. injection E as _ E. exfalso. apply Hq. eapply list_loop. exact E.
      * left. eexists. reflexivity.
      * left. injection H as <-. exists [Tok kd ls]. split; [reflexivity|]. split; [cbn [forallb]; rewrite Hpl; reflexivity|]. intros k0 ls0 [E|[]] Hfit. injection E as <- <-. rewrite (Hf _ Hfit) in Hp'. discriminate.
  - destruct (p x) eqn:Hp.
    + eapply rel_at_follow; [|apply H1, Hp]. intros l Hl. unfold pbind. rewrite must_yes by assumption. reflexivity.
    + unfold rel_at. cbn [app]. rewrite !No by assumption. repeat split; try discriminate.
      * intros e q E Hq. injection E as <- E. change (x :: s ++ t :: r) with ((x :: s) ++ t :: r) in E. apply app_loop in E. subst. reflexivity.
      * exfalso. injection H as _ _ H. apply (f_equal (@List.length token)) in H. rewrite app_length in H. cbn in H. lia.
      * exfalso. injection H as _ _ H. apply (f_equal (@List.length token)) in H. rewrite app_length in H. cbn in H. lia.
Qed.
Lemma relc_peek_bind {A} (c : Prop) p (k : bool -> P A) : relc False (k true) -> eats p (k true) -> relc (c /\ p t' = false) (k false) -> relc c (pbind (peek p) k).
Proof.
  intros (M1 & H1 & _ & _) He (M2 & H2 & H2' & St). assert (Mk : forall b, mono (k b)) by (intros []; assumption).
  assert (Eq : forall x l, pbind (peek p) k (x :: l) = k (p x) (x :: l)) by reflexivity.
  split; [apply mono_bind; [apply mono_peek|exact Mk]|]. split; [|split].
  - intros [|x s] Hs; [congruence|]. apply (rel_at_eq _ (k (p x))); [reflexivity..|]. destruct (p x); [apply H1; discriminate|apply H2; discriminate].
  - intros Hc. destruct (p t) eqn:Hp; [apply rel_at_eaten; rewrite Eq, Hp; apply He, Hp|]. destruct (p t') eqn:Hp'.
    + apply rel_at_passed; [rewrite Eq, Hp; exact St|]. rewrite Eq, Hp'. apply He, Hp'.
    + apply (rel_at_eq _ (k false)); [cbn [app]; rewrite Eq, ?Hp, ?Hp'; reflexivity..|]. apply H2'. auto.
  - rewrite Eq. destruct (p t) eqn:Hp; [apply beyond_stays, He, Hp|exact St].
Qed.
Lemma relc_ext {A} c (m m1 : P A) : (forall ts, m ts = m1 ts) -> relc c m1 -> relc c m.
Proof.
  intros E (M & H1 & H2 & H3). split; [|split; [|split]].
  - intros ts. rewrite E. apply M.
  - intros s Hs. eapply rel_at_eq; [apply E..|auto].
  - intros Hc. eapply rel_at_eq; [apply E..|auto].
  - rewrite E. exact H3.
Qed.
Lemma rel_ext {A} (m m1 : P A) : (forall ts, m ts = m1 ts) -> rel m1 -> rel m.
Proof. intros E H. apply (relc_rel True); [exact I|]. eapply relc_ext; [exact E|apply rel_relc, H]. Qed.
Lemma rel_if {A} (b : bool) (m1 m2 : P A) : rel m1 -> rel m2 -> rel (if b then m1 else m2).
Proof. destruct b; auto. Qed.
Lemma rel_of {A} (m : P A) : relc True m -> rel m.
Proof. apply relc_rel, I. Qed.
Lemma relc_imp {A} (c c' : Prop) (m : P A) : (c' -> c) -> relc c m -> relc c' m.
Proof. intros H (H1 & H2 & H3 & H4). split; [exact H1|]. split; [exact H2|]. split; auto. Qed.
Lemma bind_ret {A} (m : P A) ts : m ts = pbind m (fun a => pret a) ts.
Proof. unfold pbind. destruct (m ts); reflexivity. Qed.
Lemma rel_skip p : rel (skip p).
Proof. eapply rel_ext; [apply bind_ret|]. apply rel_of, relc_skip_bind; [apply rel_ret|apply rel_relc, rel_ret]. Qed.
Lemma rel_consume p : rel (consume p).
Proof. eapply rel_ext; [apply bind_ret|]. apply rel_of, relc_consume_bind; [intros; left; apply rel_ret|apply rel_relc, rel_ret|intros; apply mono_ret]. Qed.
Lemma rel_must p kd ls : plain_wish (Tok kd ls) = true -> (forall x, fits kd ls x -> p x = true) -> rel (must p (expected kd ls)).
Proof. intros. eapply rel_ext; [apply bind_ret|]. apply rel_must_bind; auto; intros; [left; apply rel_ret|apply mono_ret]. Qed.
Lemma kind_eqb_eq (a b : kind) : a = b -> kind_eqb a b = true.
Proof. intros ->. destruct b; reflexivity. Qed.
Lemma rel_must0 : rel (must0 KName).
Proof. apply rel_must; [reflexivity|]. intros x [H _]. apply kind_eqb_eq, H. Qed.
Lemma fits1 k l x : fits k [l] x -> is1 k l x = true.
Proof. intros [H [?|[E|[]]]]; [discriminate|]. unfold is1. rewrite (kind_eqb_eq _ _ H), <- E, beqb_refl. reflexivity. Qed.
Lemma rel_must1 k l : plain_wish (Tok k [B l]) = true -> rel (must1 k l).
Proof. intros H. apply rel_must; [exact H|]. intros x. apply fits1. Qed.
Lemma inb_in x ls : In x ls -> inb x ls = true.
Proof. intros H. unfold inb. apply existsb_exists. exists x. split; [exact H|apply beqb_refl]. Qed.
Lemma rel_mustn k ls : ls <> [] -> plain_wish (Tok k ls) = true -> rel (mustn k ls).
Proof. intros Hn H. apply rel_must; [exact H|]. intros x [Hk [?|Hi]]; [congruence|]. unfold isn. rewrite (kind_eqb_eq _ _ Hk), (inb_in _ _ Hi). reflexivity. Qed.
Lemma relc_perr1 {A} (c : Prop) k l : plain_wish (Tok k [B l]) = true -> (c -> is1 k (B l) t' = false) -> relc c (perr [want k l] : P A).
Proof.
  intros H Hc. eapply relc_imp; [|apply (relc_perr [Tok k [B l]]); cbn [forallb]; rewrite H; reflexivity].
  intros C k0 ls [E|[]] Hf. apply Hc in C. injection E as <- <-. rewrite (fits1 _ _ _ Hf) in C. discriminate.
Qed.
Lemma rel_need k l : plain_wish (Tok k [B l]) = true -> rel (need k l).
Proof. intros H. apply rel_of, relc_skip_bind; [apply rel_ret|]. apply relc_perr1; [exact H|tauto]. Qed.
Lemma rel_not m : rel m -> rel (pnot m).
Proof. intros H. apply rel_bind; [exact H|]. intros; apply rel_ret. Qed.
Lemma rel_loop {A} n p (b : P A) : rel b -> rel (loop_until n (skip p) b).
Proof.
  intros Hb. induction n; cbn [loop_until]; [apply rel_crash|]. apply rel_bind; [apply rel_skip|]. intros []; [apply rel_ret|]. apply rel_bind; [exact Hb|]. intros a. apply rel_bind; [exact IHn|]. intros; apply rel_ret.
Qed.
Lemma rel_do {A} n (b : P A) c : rel b -> rel c -> rel (do_loop n b c).
Proof.
  intros Hb Hc. induction n; cbn [do_loop]; [apply rel_crash|]. apply rel_bind; [exact Hb|]. intros a. apply rel_bind; [exact Hc|]. intros []; [apply rel_ret|]. apply rel_bind; [exact IHn|]. intros; apply rel_ret.
Qed.
(** [for p.peek(...) { body }] *)
Lemma rel_while {A} n p (b : P A) : rel b -> eats p b -> rel (loop_until n (pnot (peek p)) b).
Proof.
  intros Hb He. induction n as [|n IH]; cbn [loop_until]; [apply rel_crash|].
  assert (Hr : rel (a <- b ;; l <- loop_until n (pnot (peek p)) b ;; pret (a :: l))) by (apply rel_bind; [exact Hb|]; intros a; apply rel_bind; [exact IH|]; intros; apply rel_ret).
  apply (rel_ext _ (pbind (peek p) (fun y => if y then (a <- b ;; l <- loop_until n (pnot (peek p)) b ;; pret (a :: l)) else pret []))).
  { intros [|x l]; [reflexivity|]. unfold pnot at 1. unfold pbind at 1 2 5. rewrite peek_is. unfold pret at 1. destruct (p x); reflexivity. }
  apply rel_of, relc_peek_bind; [apply rel_relc, Hr| |apply rel_relc, rel_ret].
  apply eats_bind; [exact He|]. intros a. apply mono_bind; [apply IH|]. intros; apply mono_ret.
Qed.
(** [for { body; if peek close || EOF { break } }; mustConsume close] *)
Definition closing (c : string) (x : token) : bool := is1 KPunct (B c) x || is0 KEOF x.
Lemma at_close_is c ts : at_close c ts = peek (closing c) ts.
Proof. destruct ts as [|x l]; [reflexivity|]. unfold at_close, peek1, peek0, pbind. rewrite !peek_is. unfold closing. destruct (is1 KPunct (B c) x); reflexivity. Qed.
Lemma eof_not : is0 KEOF t' = false.
Proof. unfold is0. destruct (tkind t'); try reflexivity. congruence. Qed.
Lemma rel_close {A} c p (m1 m2 : P A) k1 : plain_wish (Tok KPunct [B c]) = true ->
  (forall x, is1 KPunct (B c) x = true -> p x = true) -> (forall x, p x = true -> is1 KPunct (B c) x = true \/ is0 KEOF x = true) ->
  m1 = pbind (must1 KPunct c) k1 -> (forall a, rel (k1 a)) -> rel m2 -> strict m2 -> rel (pbind (peek p) (fun b : bool => if b then m1 else m2)).
Proof.
  intros Hpl Hp1 Hp2 -> Hk H2 Hs. assert (H1 : rel (pbind (must1 KPunct c) k1)) by (apply rel_bind; [apply rel_must1, Hpl|exact Hk]).
  set (m1 := pbind (must1 KPunct c) k1) in *.
  assert (E1 : eats (is1 KPunct (B c)) m1) by (apply eats_bind; [apply eats_must|intros a; apply Hk]).
  assert (Eq : forall x l, pbind (peek p) (fun b : bool => if b then m1 else m2) (x :: l) = (if p x then m1 else m2) (x :: l)) by reflexivity.
  assert (Pt' : p t' = is1 KPunct (B c) t'). { destruct (p t') eqn:E; [destruct (Hp2 _ E) as [->|X]; [reflexivity|rewrite eof_not in X; discriminate]|]. destruct (is1 KPunct (B c) t') eqn:X; [rewrite (Hp1 _ X) in E; discriminate|reflexivity]. }
  split; [apply mono_bind; [apply mono_peek|]; intros []; [apply H1|apply H2]|]. intros [|x s].
  - destruct (p t) eqn:Pt.
    + destruct (is1 KPunct (B c) t) eqn:Ct; [apply rel_at_eaten; rewrite Eq, Pt; apply E1, Ct|].
      assert (Em : m1 (t :: r) = PErr (unexpected t (map render [Tok KPunct [B c]])) (t :: r)) by (unfold m1, pbind, must1; rewrite must_no by exact Ct; reflexivity).
      destruct (is1 KPunct (B c) t') eqn:Ct'.
      * apply rel_at_passed; rewrite Eq, ?Pt, ?Pt'; [rewrite Em|apply E1, Ct']. left. split; [reflexivity|]. right. exists [Tok KPunct [B c]]. split; [reflexivity|]. cbn [forallb]. rewrite Hpl. reflexivity.
      * unfold rel_at. cbn [app]. rewrite !Eq, Pt, Pt', Em. repeat split; try discriminate.
        -- intros e q E Hq. injection E as _ E. exfalso. apply Hq. eapply list_loop. exact E.
        -- destruct (Hs t' r') as [Hx|Hx]; [left; exact Hx|right; exact Hx].
        -- left. injection H as <-. exists [Tok KPunct [B c]]. split; [reflexivity|]. split; [cbn [forallb]; rewrite Hpl; reflexivity|]. intros k ls [E|[]] Hf. injection E as <- <-. rewrite (fits1 _ _ _ Hf) in Ct'. discriminate.
    + destruct (is1 KPunct (B c) t') eqn:Ct'.
      * apply rel_at_passed; rewrite Eq, ?Pt, ?Pt'; [apply rel_stays, H2|apply E1, Ct'].
      * apply (rel_at_eq _ m2); [cbn [app]; rewrite Eq, ?Pt, ?Pt'; reflexivity..|apply H2].
  - apply (rel_at_eq _ (if p x then m1 else m2)); [reflexivity..|]. destruct (p x); [apply H1|apply H2].
Qed.
Lemma do_unfold {A C} n (b : P A) fin (k : list A -> P C) ts :
  pbind (do_loop (S n) b fin) k ts = pbind b (fun a => pbind fin (fun c : bool => if c then k [a] else pbind (do_loop n b fin) (fun l => k (a :: l)))) ts.
Proof.
  cbn [do_loop]. unfold pbind. destruct (b ts) as [a u| |]; try reflexivity. destruct (fin u) as [[] v| |]; try reflexivity. destruct (do_loop n b fin v); reflexivity.
Qed.
Lemma strict_do {A} n (b : P A) c : strict b -> mono b -> mono c -> strict (do_loop n b c).
Proof.
  intros H Mb Mc. destruct n; cbn [do_loop]; [apply strict_crash|]. apply strict_bind; [exact H|]. intros a. apply mono_bind; [exact Mc|]. intros []; [apply mono_ret|]. apply mono_bind; [apply mono_do; assumption|]. intros; apply mono_ret.
Qed.
Lemma rel_do_peek {A C} c p (b : P A) : plain_wish (Tok KPunct [B c]) = true ->
  (forall x, is1 KPunct (B c) x = true -> p x = true) -> (forall x, p x = true -> is1 KPunct (B c) x = true \/ is0 KEOF x = true) ->
  rel b -> strict b -> forall n (k : list A -> P C), (forall l, rel (k l)) -> rel (l <- do_loop n b (peek p) ;; must1 KPunct c ;;; k l).
Proof.
  intros Hpl Hp1 Hp2 Hb Hs. induction n as [|n IH]; intros k Hk; [apply rel_crash|]. eapply rel_ext; [apply do_unfold|]. apply rel_bind; [exact Hb|]. intros a.
  apply (rel_close c p (must1 KPunct c ;;; k [a]) _ (fun _ => k [a])); auto.
  apply strict_bind; [apply strict_do; [exact Hs|apply Hb|apply mono_peek]|]. intros l. apply mono_bind; [apply mono_must|]. intros; apply Hk.
Qed.
Lemma do_ext {A} n (b : P A) c c' ts : (forall ts, c ts = c' ts) -> do_loop n b c ts = do_loop n b c' ts.
Proof. intros E. revert ts. induction n as [|n IH]; intros ts; [reflexivity|]. cbn [do_loop]. unfold pbind. destruct (b ts) as [a u| |]; try reflexivity. rewrite E. destruct (c' u) as [[] v| |]; try reflexivity. rewrite IH. reflexivity. Qed.
Lemma rel_do_close {A C} c (b : P A) n (k : list A -> P C) : plain_wish (Tok KPunct [B c]) = true -> rel b -> strict b -> (forall l, rel (k l)) ->
  rel (l <- do_loop n b (at_close c) ;; must1 KPunct c ;;; k l).
Proof.
  intros Hpl Hb Hs Hk. eapply rel_ext; [|apply (rel_do_peek c (closing c) b Hpl) with (n := n) (k := k); try assumption].
  - intros ts. unfold pbind. rewrite (do_ext n b _ _ ts (at_close_is c)). reflexivity.
  - intros x E. unfold closing. rewrite E. reflexivity.
  - intros x E. apply orb_true_iff in E. exact E.
Qed.

(** ** The functions of the parser *)
(** for tactics: *)
Ltac plain := first [reflexivity | vm_compute; reflexivity].
Ltac mstep := match goal with
  | |- mono (pbind _ _) => apply mono_bind
  | |- mono (pret _) => apply mono_ret
  | |- mono (pcrash _) => apply mono_crash
  | |- mono (pfail _) => apply mono_fail
  | |- mono (perr _) => apply mono_perr
  | |- mono tok => apply mono_tok
  | |- mono (skip1 _ _) => apply mono_skip
  | |- mono (peek1 _ _) => apply mono_peek
  | |- mono (peek0 _) => apply mono_peek
  | |- mono (peekn _ _) => apply mono_peek
  | |- mono (peek _) => apply mono_peek
  | |- mono (must0 _) => apply mono_must
  | |- mono (must1 _ _) => apply mono_must
  | |- mono (mustn _ _) => apply mono_must
  | |- mono (consume0 _) => apply mono_consume
  | |- mono (consume _) => apply mono_consume
  | |- mono (need _ _) => apply mono_need
  | |- mono (pnot _) => apply mono_not
  | |- mono (at_close _) => apply mono_at_close
  | |- mono (loop_until _ _ _) => apply mono_loop
  | |- mono (do_loop _ _ _) => apply mono_do
  | |- mono (if ?b then _ else _) => destruct b
  | |- mono (match ?x with _ => _ end) => destruct x
  | |- forall a, _ => intros ?
  | H : rel ?m |- mono ?m => apply H
  | H : mono ?m |- mono ?m => exact H
  end.
Ltac ms := repeat mstep.
Ltac rstep := match goal with
  | |- rel (pbind (skip1 _ _) (fun b => if b then _ else _)) => apply rel_bind; [apply rel_skip|]
  | |- rel (pbind _ _) => apply rel_bind
  | |- rel (pret _) => apply rel_ret
  | |- rel (pcrash _) => apply rel_crash
  | |- rel (skip1 _ _) => apply rel_skip
  | |- rel (must0 KName) => apply rel_must0
  | |- rel (must1 _ _) => apply rel_must1; plain
  | |- rel (mustn _ _) => apply rel_mustn; [discriminate|plain]
  | |- rel (consume0 _) => apply rel_consume
  | |- rel (consume _) => apply rel_consume
  | |- rel (need _ _) => apply rel_need; plain
  | |- rel (pnot (skip1 _ _)) => apply rel_not, rel_skip
  | |- rel (loop_until _ (skip1 _ _) _) => apply rel_loop
  | |- rel (do_loop _ _ _) => apply rel_do
  | |- rel (if ?b then _ else _) => destruct b
  | |- forall a, _ => intros ?
  | H : rel ?m |- rel ?m => exact H
  end.
Ltac rs := repeat rstep.

Variable fok : bytes -> bool.

Definition catch {A} (m : P A) : P (option A) := fun ts => match m ts with POk a u => POk (Some a) u | PErr _ u => POk None u | PCrash c => PCrash c end.
Lemma rel_catch {A} (m : P A) : rel m -> rel (catch m).
Proof.
  intros [M H]. split.
  - intros ts. specialize (M ts). unfold catch. destruct (m ts); exact M.
  - intros s. destruct (H s) as (H1 & H2 & H3 & H4). unfold rel_at, catch. destruct (m (s ++ t :: r)) as [a u|e u|c].
    + repeat split; try discriminate.
      * intros b q E Hq. injection E as <- ->. rewrite (H1 a q eq_refl Hq). reflexivity.
      * intros b E. injection E as <- ->. destruct (H3 a eq_refl) as [->|Hp]; [left; reflexivity|right]. destruct (m (s ++ t' :: r')); exact Hp.
    + repeat split; try discriminate.
      * intros b q E Hq. injection E as <- ->. rewrite (H2 e q eq_refl Hq). reflexivity.
      * intros b E. injection E as <- ->. destruct (H4 e eq_refl) as [[(e' & ->)|Hp] _]; [left; reflexivity|right]. destruct (m (s ++ t' :: r')); exact Hp.
    + repeat split; discriminate.
Qed.
Lemma rel_type n : rel (parse_type n).
Proof.
  induction n as [|n IH]; [apply rel_crash|]. cbn [parse_type]. apply rel_bind; [apply rel_skip|]. intros []; [|rs].
  apply (rel_ext _ (pbind (catch (parse_type n)) (fun o => match o with Some it => (must1 KPunct "]" ;;; nn <- skip1 KPunct "!" ;; pret (TList it nn)) | None => pret TListNil end))).
  - intros ts. unfold pbind at 3, catch. destruct (parse_type n ts); reflexivity.
  - apply rel_bind; [apply rel_catch, IH|]. intros [it|]; rs.
Qed.
Lemma rel_value n : rel (parse_value fok n).
Proof.
  induction n as [|n IH]; [apply rel_crash|]. cbn [parse_value]. apply rel_bind; [apply rel_skip|]. intros []; [rs|].
  assert (Mo : forall x, mono (match atoi (tlit x) with Some z => pret (VInt z) | None => pfail (number_error (B "Atoi") (tlit x)) end : P value)) by (intros x; ms).
  apply rel_of, relc_consume_bind; [| |exact Mo].
  { intros x Hx. destruct (atoi (tlit x)); [left; apply rel_ret|right]. eexists. split; [reflexivity|]. right. exists [], x. split; [reflexivity|]. right; left. split; [apply kind_eqb_true; exact Hx|reflexivity]. }
  apply relc_consume_bind; [| |intros x; ms].
  { intros x Hx. destruct (fok (tlit x)); [left; apply rel_ret|right]. eexists. split; [reflexivity|]. right. exists [], x. split; [reflexivity|]. right; right. split; [apply kind_eqb_true; exact Hx|reflexivity]. }
  apply rel_relc. apply rel_bind; [apply rel_consume|]. intros [x|]; [rs|]. apply rel_bind; [apply rel_consume|]. intros [x|]; [rs|].
  apply rel_bind; [apply rel_skip|]. intros []; [rs|]. apply rel_bind; [apply rel_consume|]. intros [x|]; [rs|]. apply rel_bind; [apply rel_skip|]. intros []; [rs|].
  apply rel_bind; [apply rel_skip|]. intros []; [unfold parse_object_field; rs|]. apply rel_other. intros s. left. reflexivity.
Qed.
Lemma rel_default n : rel (parse_default fok n).
Proof. unfold parse_default. pose proof (rel_value n). rs. Qed.
Lemma rel_arguments n : rel (parse_arguments fok n).
Proof. unfold parse_arguments, parse_argument. pose proof (rel_value n). rs. Qed.
Lemma rel_directives n l : rel (parse_directives fok n l).
Proof.
  unfold parse_directives. pose proof (rel_arguments n) as Ha. apply rel_while.
  - unfold parse_directive. rs.
  - unfold parse_directive. apply eats_bind; [apply eats_must|]. intros x. destruct Ha. ms.
Qed.
Lemma rel_named y : rel (named_only y).
Proof.
  destruct y; cbn [named_only]; [apply rel_ret|..]; (apply rel_of; eapply relc_imp; [|apply (relc_perr [Phrase (B "NamedType")]); reflexivity]; intros _ k ls [E|[]]; discriminate).
Qed.
Lemma rel_type_condition n : rel (parse_type_condition n).
Proof. unfold parse_type_condition. pose proof (rel_type n). pose proof rel_named. rs. auto. Qed.
Lemma rel_spread n : rel (parse_spread fok n).
Proof. unfold parse_spread. pose proof (rel_directives n LFragmentSpread). rs. Qed.
Lemma rel_inline n ss : (forall o, rel (ss o)) -> rel (parse_inline fok n ss).
Proof.
  intros Hs. unfold parse_inline. pose proof (rel_directives n LInlineFragment). pose proof (rel_type_condition n). apply rel_of, relc_peek_bind.
  - apply rel_relc. rs. auto.
  - apply eats_bind; [|destruct H, (Hs false); ms]. apply eats_bind; [|destruct H; ms]. unfold parse_type_condition. apply eats_bind; [apply eats_must|]. intros x. destruct (rel_type n). ms. apply rel_named.
  - apply rel_relc. rs. auto.
Qed.
Lemma rel_field n ss : (forall o, rel (ss o)) -> rel (parse_field fok n ss).
Proof. intros Hs. unfold parse_field. pose proof (rel_directives n LField). pose proof (rel_arguments n). rs. auto. Qed.
Lemma rel_selection n ss : (forall o, rel (ss o)) -> rel (parse_selection fok n ss).
Proof.
  intros Hs. unfold parse_selection. apply rel_bind; [apply rel_skip|]. intros []; [|apply rel_field, Hs].
  apply rel_of, relc_peek_bind; [apply rel_relc, rel_spread| |apply rel_relc, rel_inline, Hs].
  intros x l Hx. unfold parse_spread. apply eats_bind with (p := is0 KName); [apply eats_must|destruct (rel_directives n LFragmentSpread); ms|]. apply andb_true_iff in Hx. apply Hx.
Qed.
Lemma strict_selection n ss : (forall o, rel (ss o)) -> strict (parse_selection fok n ss).
Proof.
  intros Hs. pose proof (rel_field n ss Hs). pose proof (rel_spread n). pose proof (rel_inline n ss Hs). unfold parse_selection. apply strict_skip_else; [destruct H, H0, H1; ms|].
  unfold parse_field. apply strict_bind; [apply strict_must|]. intros x. destruct (rel_directives n LField), (rel_arguments n), (Hs true). ms.
Qed.
Lemma rel_selset n : forall o, rel (parse_selset fok n o).
Proof.
  induction n as [|n IH]; intros o; [apply rel_crash|]. cbn [parse_selset]. apply rel_of, relc_skip_bind.
  - apply rel_do_close; [plain|apply rel_selection, IH|apply strict_selection, IH|]. intros; apply rel_ret.
  - destruct o; [apply rel_relc, rel_ret|]. apply relc_perr1; [reflexivity|tauto].
Qed.
Lemma rel_vardef n : rel (parse_vardef fok n).
Proof. unfold parse_vardef. pose proof (rel_type n). pose proof (rel_default n). rs. Qed.
Lemma strict_vardef n : strict (parse_vardef fok n).
Proof. unfold parse_vardef. apply strict_bind; [apply strict_must|]. destruct (rel_type n), (rel_default n). ms. Qed.
Lemma rel_vardefs n : rel (parse_vardefs fok n).
Proof.
  unfold parse_vardefs. apply rel_bind; [apply rel_skip|]. intros []; [|apply rel_ret].
  apply (rel_do_peek ")" (is1 KPunct (B ")")) (parse_vardef fok n)); auto using rel_vardef, strict_vardef. intros; apply rel_ret.
Qed.
Lemma rel_optype : rel parse_optype.
Proof. unfold parse_optype. rs. Qed.
Lemma rel_operation n b : rel (parse_operation fok n b).
Proof.
  unfold parse_operation. pose proof (rel_selset n). pose proof (rel_vardefs n). pose proof rel_optype. pose proof (rel_directives n). destruct b; rs; auto.
Qed.
Lemma rel_fragment n : rel (parse_fragment fok n).
Proof.
  unfold parse_fragment. pose proof (rel_selset n). pose proof (rel_type_condition n). pose proof (rel_directives n).
  apply rel_bind; [apply rel_skip|]. intros []; cbn [negb]; [|apply rel_ret]. apply rel_bind; [apply rel_consume|]. intros [x|]; [|apply rel_ret].
  destruct (beqb (tlit x) (B "on")); [|rs; auto]. apply rel_of, relc_perr1; [reflexivity|].
  intros _. unfold is1. destruct (kind_eqb (tkind t') KName) eqn:Ek; [|reflexivity]. destruct (beqb (tlit t') (B "!on")) eqn:El; [|reflexivity].
  destruct (Hreal (kind_eqb_true _ _ Ek)) as [Hn _]. elim Hn. apply beqb_true, El.
Qed.
Lemma rel_desc : rel parse_desc.
Proof. unfold parse_desc. rs. Qed.
Lemma rel_ivdef n l : rel (parse_ivdef fok n l).
Proof. unfold parse_ivdef. pose proof rel_desc. pose proof (rel_type n). pose proof (rel_default n). pose proof (rel_directives n l). rs. Qed.
Lemma strict_ivdef n l : strict (parse_ivdef fok n l).
Proof.
  unfold parse_ivdef. destruct rel_desc, (rel_type n), (rel_default n), (rel_directives n l). apply strict_later; [ms..|]. intros a. apply strict_bind; [apply strict_must|]. ms.
Qed.
Lemma rel_argdefs n : rel (parse_argdefs fok n).
Proof.
  unfold parse_argdefs. apply rel_bind; [apply rel_skip|]. intros []; [|apply rel_ret]. apply rel_do_close; [plain|apply rel_ivdef|apply strict_ivdef|]. intros; apply rel_ret.
Qed.
Lemma rel_fielddefs n : rel (parse_fielddefs fok n).
Proof. unfold parse_fielddefs, parse_fielddef. pose proof rel_desc. pose proof (rel_type n). pose proof (rel_argdefs n). pose proof (rel_directives n LFieldDefinition). rs. Qed.
Lemma rel_enumval n : rel (parse_enumval fok n).
Proof.
  unfold parse_enumval. pose proof (rel_directives n LEnumValue) as Hd. apply rel_bind; [apply rel_desc|]. intros d. apply rel_must_bind; [reflexivity|intros x [H _]; apply kind_eqb_eq, H| |intros x; destruct Hd; ms].
  intros x Hx. destruct (inb _ _) eqn:El; [right|left; rs]. eexists. split; [reflexivity|]. right. exists [], x. split; [reflexivity|]. left. split; [exact El|]. split; [apply kind_eqb_true; exact Hx|reflexivity].
Qed.
Lemma rel_enumvals n : rel (parse_enumvals fok n).
Proof. unfold parse_enumvals. pose proof (rel_enumval n). rs. Qed.
Lemma rel_inputs n : rel (parse_inputs fok n).
Proof. unfold parse_inputs. pose proof (rel_ivdef n LInputFieldDefinition). rs. Qed.
Lemma rel_implements n : rel (parse_implements n).
Proof. unfold parse_implements. pose proof (rel_type n). rs. Qed.
Lemma rel_members n : rel (parse_members n).
Proof. unfold parse_members. pose proof (rel_type n). rs. Qed.
Lemma rel_typebody n d : rel (parse_typebody fok n d).
Proof.
  unfold parse_typebody. pose proof (rel_directives n). pose proof (rel_implements n). pose proof (rel_fielddefs n). pose proof (rel_members n). pose proof (rel_enumvals n). pose proof (rel_inputs n).
  apply rel_bind; [apply rel_must0|]. intros x. destruct (kind_of_kw (tlit x)) as [k|]; [|apply rel_crash]. destruct k; rs; auto.
Qed.
Lemma rel_optypedef n : rel (parse_optypedef n).
Proof. unfold parse_optypedef. pose proof rel_optype. pose proof (rel_type n). pose proof rel_named. rs; auto. Qed.
Lemma strict_optypedef n : strict (parse_optypedef n).
Proof.
  unfold parse_optypedef. destruct (rel_type n). apply strict_bind; [unfold parse_optype; apply strict_bind; [apply strict_must|ms]|]. ms. apply rel_named.
Qed.
Lemma rel_optypedefs n : rel (parse_optypedefs n).
Proof. unfold parse_optypedefs. apply rel_bind; [apply rel_need; plain|]. intros _. apply rel_do_close; [plain|apply rel_optypedef|apply strict_optypedef|]. intros; apply rel_ret. Qed.
Lemma rel_schemadef n : rel (parse_schemadef fok n).
Proof. unfold parse_schemadef. pose proof (rel_optypedefs n). pose proof (rel_directives n LSchema). rs. Qed.
Lemma rel_perr0 {A} : rel (perr [] : P A).
Proof. apply rel_of. eapply relc_imp; [|apply (relc_perr []); reflexivity]. intros _ k ls []. Qed.
Lemma rel_schemaext n : rel (parse_schemaext fok n).
Proof.
  unfold parse_schemaext. pose proof (rel_optypedefs n) as Ho. pose proof (rel_directives n LSchema) as Hd.
  apply rel_bind; [apply rel_need; plain|]. intros _. apply rel_bind; [exact Hd|]. intros ds.
  assert (Hl : forall ops, rel (match ds, ops with [], [] => perr [] | _, _ => pret (mkSd ds ops) end)) by (intros ops; destruct ds, ops; first [apply rel_perr0|apply rel_ret]).
  apply rel_of, relc_peek_bind.
  - apply rel_relc, rel_bind; [exact Ho|exact Hl].
  - apply eats_bind; [|intros a; apply Hl]. unfold parse_optypedefs. apply eats_bind; [apply eats_need|]. destruct (rel_optypedef n). ms.
  - apply rel_relc, rel_bind; [apply rel_ret|exact Hl].
Qed.
Lemma rel_dirloc : rel parse_dirloc.
Proof.
  apply (rel_ext _ (x <- mustn KName location_names ;; pret (location_by_name (tlit x)))); [|rs].
  intros [|x l]; [reflexivity|]. unfold parse_dirloc, pbind, mustn, must. rewrite tok_bind. change (pbind tok ?k (x :: l)) with (k x (x :: l)). cbv beta. destruct (isn _ _ x); [|reflexivity]. destruct l; reflexivity.
Qed.
Lemma rel_dirlocs n : rel (parse_dirlocs n).
Proof. unfold parse_dirlocs. pose proof rel_dirloc. rs. Qed.
Lemma rel_dirdef n d : rel (parse_dirdef fok n d).
Proof. unfold parse_dirdef. pose proof (rel_dirlocs n). pose proof (rel_argdefs n). rs. Qed.
Lemma eats_imp {A} (p p' : token -> bool) (m : P A) : (forall x, p x = true -> p' x = true) -> eats p' m -> eats p m.
Proof. intros H E x l Hp. apply E, H, Hp. Qed.
Lemma isn_is0 k ls x : isn k ls x = true -> is0 k x = true.
Proof. intros H. apply andb_true_iff in H. apply H. Qed.
Lemma eats_schemadef n : eats (is1 KName (B "schema")) (parse_schemadef fok n).
Proof. unfold parse_schemadef. apply eats_bind; [apply eats_need|]. destruct (rel_directives n LSchema), (rel_optypedefs n). ms. Qed.
Lemma eats_schemaext n : eats (is1 KName (B "schema")) (parse_schemaext fok n).
Proof. unfold parse_schemaext. apply eats_bind; [apply eats_need|]. destruct (rel_directives n LSchema), (rel_optypedefs n). ms. Qed.
Lemma eats_dirdef n d : eats (is1 KName (B "directive")) (parse_dirdef fok n d).
Proof. unfold parse_dirdef. apply eats_bind; [apply eats_skip|]. destruct (rel_argdefs n), (rel_dirlocs n). ms. Qed.
Lemma eats_typebody n d ls : eats (isn KName ls) (parse_typebody fok n d).
Proof.
  apply (eats_imp _ (is0 KName)); [apply isn_is0|]. unfold parse_typebody. apply eats_bind; [apply eats_must|]. intros x.
  pose proof (rel_directives n) as H1. destruct (rel_implements n) as [H2 _], (rel_fielddefs n) as [H3 _], (rel_members n) as [H4 _], (rel_enumvals n) as [H5 _], (rel_inputs n) as [H6 _]. ms; try apply H1.
Qed.
Lemma rel_tsdef n d : rel (parse_tsdef fok n d).
Proof.
  unfold parse_tsdef. pose proof (rel_schemadef n). pose proof (rel_dirdef n d). pose proof (rel_typebody n d). apply rel_of.
  apply relc_peek_bind; [apply rel_relc; rs|apply eats_bind; [apply eats_schemadef|ms]|].
  apply relc_peek_bind; [apply rel_relc; rs|apply eats_bind; [apply eats_dirdef|ms]|].
  apply relc_peek_bind; [apply rel_relc; rs|apply eats_bind; [apply eats_typebody|ms]|]. apply rel_relc, rel_crash.
Qed.
Definition wanted_ext : list bytes := map B ("schema"%string :: type_kws).
Lemma rel_tsext n : rel (parse_tsext fok n).
Proof.
  unfold parse_tsext. pose proof (rel_schemaext n). pose proof (rel_typebody n []). apply rel_bind; [apply rel_need; plain|]. intros _. apply rel_of.
  apply relc_peek_bind; [apply rel_relc; rs|apply eats_bind; [apply eats_schemaext|ms]|].
  apply relc_peek_bind; [apply rel_relc; rs|apply eats_bind; [apply eats_typebody|ms]|].
  fold wanted_ext. eapply relc_imp; [|apply (relc_perr [Tok KName wanted_ext]); reflexivity].
  intros [[_ H1] H2] k ls [E|[]] Hf. assert (k = KName /\ ls = wanted_ext) as [-> ->] by (split; congruence). destruct Hf as [Hk [Hn|Hi]]; [discriminate|].
  unfold is1, isn in *. rewrite (kind_eqb_eq _ _ Hk) in *. destruct Hi as [Hi|Hi]; [rewrite <- Hi, beqb_refl in H1; discriminate|]. rewrite (inb_in _ _ Hi) in H2. discriminate.
Qed.

(** *** A definition *)
Definition wanted_def : list wish := [Tok KName (map B ["query"; "mutation"; "fragment"]%string); Tok KPunct [B "{"]].
Definition described (n : nat) (d : bytes) : P (option body) :=
  b <- peekn KName (tsdef_kws d) ;; if b then (b <- parse_tsdef fok n d ;; pret (Some b)) else perr (map render wanted_def).
Lemma eats_tsdef n d0 d : eats (isn KName (map B (tsdef_kws d0))) (parse_tsdef fok n d).
Proof.
  intros x l Hx. unfold parse_tsdef. change (pbind (peek1 ?k ?i) ?f (x :: l)) with (f (is1 k (B i) x) (x :: l)). cbv beta. destruct (is1 KName (B "schema") x) eqn:E1.
  { eapply eats_bind; [apply eats_schemadef|ms|exact E1]. }
  change (pbind (peek1 ?k ?i) ?f (x :: l)) with (f (is1 k (B i) x) (x :: l)). cbv beta. destruct (is1 KName (B "directive") x) eqn:E2.
  { eapply eats_bind; [apply eats_dirdef|ms|exact E2]. }
  change (pbind (peekn ?k ?i) ?f (x :: l)) with (f (isn k (map B i) x) (x :: l)). cbv beta. destruct (isn KName (map B type_kws) x) eqn:E3.
  { eapply eats_bind; [apply eats_typebody|ms|exact E3]. }
  exact I.
Qed.
Lemma strict_described n d : strict (described n d).
Proof.
  intros x l. unfold described. change (pbind (peekn ?k ?i) ?f (x :: l)) with (f (isn k (map B i) x) (x :: l)). cbv beta.
  destruct (isn KName (map B (tsdef_kws d)) x) eqn:E; [right; eapply eats_bind; [apply eats_tsdef|ms|exact E]|left; eexists; reflexivity].
Qed.
Lemma mono_described n d : mono (described n d).
Proof. unfold described. destruct (rel_tsdef n d). ms. Qed.
Lemma described_fails n d x l e u : described n d (x :: l) = PErr e u -> u = x :: l -> e = unexpected x (map render wanted_def).
Proof.
  unfold described. change (pbind (peekn ?k ?i) ?f (x :: l)) with (f (isn k (map B i) x) (x :: l)). cbv beta.
  destruct (isn KName (map B (tsdef_kws d)) x) eqn:E; [|intros H _; unfold perr, pfail, pbind in H; cbn [tok] in H; injection H as <- _; reflexivity].
  intros H ->. assert (Z : eats (isn KName (map B (tsdef_kws d))) (b <- parse_tsdef fok n d ;; pret (Some b))) by (apply eats_bind; [apply eats_tsdef|ms]). specialize (Z x l E). rewrite H in Z. cbn in Z.
  destruct Z as (q & Z). exfalso. apply (f_equal (@List.length token)) in Z. rewrite app_length in Z. cbn in Z. lia.
Qed.
Lemma relc_described n d : relc (forall k ls, In (Tok k ls) wanted_def -> fits k ls t' -> False) (described n d).
Proof.
  apply relc_peek_bind; [apply rel_relc, rel_bind; [apply rel_tsdef|intros; apply rel_ret]|apply eats_bind; [apply eats_tsdef|ms]|].
  eapply relc_imp; [|apply relc_perr; reflexivity]. tauto.
Qed.
Definition opish (x : token) : bool := isn KName [B "query"; B "mutation"; B "subscription"] x || is1 KPunct (B "{") x.
Definition some (m : P body) : P (option body) := b <- m ;; pret (Some b).
Definition begins (x : token) : bool := opish x || is1 KName (B "fragment") x || is1 KName (B "extend") x || is0 KString x.
Lemma body_is n x l : parse_body fok n (x :: l) =
  (if opish x then some (parse_operation fok n (beqb (tlit x) (B "{"))) else if is1 KName (B "fragment") x then parse_fragment fok n else if is1 KName (B "extend") x then some (parse_tsext fok n)
   else pbind parse_desc (described n)) (x :: l).
Proof. unfold parse_body. rewrite tok_bind. fold (opish x). destruct (opish x); [reflexivity|]. destruct (is1 KName (B "fragment") x); [reflexivity|]. destruct (is1 KName (B "extend") x); reflexivity. Qed.
Lemma body_string n x l : opish x = false -> is1 KName (B "fragment") x = false -> is1 KName (B "extend") x = false -> is0 KString x = true -> l <> [] -> parse_body fok n (x :: l) = described n (tlit x) l.
Proof.
  intros H1 H2 H3 H4 Hl. rewrite body_is, H1, H2, H3. unfold pbind, parse_desc, consume0. unfold pbind at 1. rewrite consume_yes by assumption. reflexivity.
Qed.
Lemma body_plain n x l : begins x = false -> parse_body fok n (x :: l) = described n [] (x :: l).
Proof.
  intros H. unfold begins in H. rewrite !orb_false_iff in H. destruct H as [[[H1 H2] H3] H4].
  rewrite body_is, H1, H2, H3. unfold pbind, parse_desc, consume0. unfold pbind at 1. rewrite consume_no by assumption. reflexivity.
Qed.
Lemma mono_some m : mono m -> mono (some m).
Proof. intros H. unfold some. ms. Qed.
Lemma eats_selset n : eats (is1 KPunct (B "{")) (parse_selset fok n false).
Proof.
  destruct n as [|n]; [intros x l _; exact I|]. cbn [parse_selset]. apply eats_bind; [apply eats_skip|]. destruct (rel_selection n (parse_selset fok n) (rel_selset n)). ms.
Qed.
Lemma eats_body n : eats begins (parse_body fok n).
Proof.
  intros x l H. rewrite body_is. destruct (opish x) eqn:H1.
  { unfold some, parse_operation. destruct (beqb (tlit x) (B "{")) eqn:Eb.
    - destruct (is1 KPunct (B "{") x) eqn:Ep; [eapply eats_bind; [apply eats_bind; [apply eats_selset|ms]|ms|exact Ep]|].
      unfold opish in H1. rewrite Ep, orb_false_r in H1. apply andb_true_iff in H1. destruct H1 as [_ H1]. apply beqb_true in Eb; rewrite Eb in H1. discriminate.
    - destruct (isn KName [B "query"; B "mutation"; B "subscription"] x) eqn:Ep.
      + eapply eats_bind; [apply eats_bind; [unfold parse_optype; apply eats_bind; [apply eats_must|ms]|]|ms|exact Ep]. destruct (rel_vardefs n), (rel_selset n false). pose proof (rel_directives n). ms. apply H5.
      + unfold opish in H1. rewrite Ep in H1. apply andb_true_iff in H1. destruct H1 as [_ H1]. congruence. }
  destruct (is1 KName (B "fragment") x) eqn:H2.
  { unfold parse_fragment. eapply eats_bind; [apply eats_skip| |exact H2]. destruct (rel_type_condition n), (rel_selset n false). pose proof (rel_directives n). ms. apply H6. }
  destruct (is1 KName (B "extend") x) eqn:H3.
  { unfold some, parse_tsext. eapply eats_bind; [apply eats_bind; [apply eats_need|]|ms|exact H3]. destruct (rel_schemaext n), (rel_typebody n []). ms. }
  unfold begins in H. rewrite H1, H2, H3 in H. cbn [orb] in H. unfold parse_desc. eapply eats_bind; [apply eats_bind; [apply eats_consume|ms]|intros; apply mono_described|exact H].
Qed.
Lemma mono_body n : mono (parse_body fok n).
Proof.
  intros [|x l]; [exact I|]. rewrite body_is. pose proof (rel_operation n (beqb (tlit x) (B "{"))) as [H1 _]. pose proof (rel_fragment n) as [H2 _]. pose proof (rel_tsext n) as [H3 _]. pose proof rel_desc as [H4 _].
  destruct (opish x); [apply mono_some, H1|]. destruct (is1 KName (B "fragment") x); [apply H2|]. destruct (is1 KName (B "extend") x); [apply mono_some, H3|]. apply mono_bind; [exact H4|apply mono_described].
Qed.
Lemma strict_body n : strict (parse_body fok n).
Proof. intros x l. destruct (begins x) eqn:E; [right; apply eats_body, E|]. rewrite body_plain by exact E. apply strict_described. Qed.
Lemma not_begins x : begins x = false -> forall k ls, In (Tok k ls) wanted_def -> fits k ls x -> False.
Proof.
  intros H k ls Hi [Hk Hl]. unfold begins, opish in H. rewrite !orb_false_iff in H. destruct H as [[[[H1 H0] H2] _] _]. unfold wanted_def in Hi. unfold isn, is1 in *.
  destruct Hi as [E|[E|[]]].
  - assert (k = KName /\ ls = map B ["query"; "mutation"; "fragment"]%string) as [-> ->] by (split; congruence). rewrite (kind_eqb_eq _ _ Hk) in *. destruct Hl as [Hl|[Hl|[Hl|[Hl|[]]]]]; [discriminate|rewrite <- Hl in *; discriminate..].
  - assert (k = KPunct /\ ls = [B "{"]) as [-> ->] by (split; congruence). rewrite (kind_eqb_eq _ _ Hk) in *. destruct Hl as [Hl|[Hl|[]]]; [discriminate|rewrite <- Hl in *; discriminate].
Qed.
Lemma no_suffix (q : list token) : ~ suffix (q ++ t :: r) r.
Proof. intros (p & E). apply (f_equal (@List.length token)) in E. rewrite !app_length in E. cbn in E. lia. Qed.
Lemma rel_body n : rel (parse_body fok n).
Proof.
  split; [apply mono_body|]. intros [|x s].
  - destruct (begins t) eqn:Bt; [apply rel_at_eaten, eats_body, Bt|]. destruct (relc_described n []) as (_ & _ & R & St). destruct (begins t') eqn:Bt'.
    + apply rel_at_passed; [rewrite body_plain by exact Bt; exact St|apply eats_body, Bt'].
    + apply (rel_at_eq _ (described n [])); [cbn [app]; apply body_plain; assumption..|]. apply R, not_begins, Bt'.
  - destruct (opish x) eqn:E1; [apply (rel_at_eq _ (some (parse_operation fok n (beqb (tlit x) (B "{"))))); [cbn [app]; rewrite body_is, E1; reflexivity..|apply rel_bind; [apply rel_operation|intros; apply rel_ret]]|].
    destruct (is1 KName (B "fragment") x) eqn:E2; [apply (rel_at_eq _ (parse_fragment fok n)); [cbn [app]; rewrite body_is, E1, E2; reflexivity..|apply rel_fragment]|].
    destruct (is1 KName (B "extend") x) eqn:E3; [apply (rel_at_eq _ (some (parse_tsext fok n))); [cbn [app]; rewrite body_is, E1, E2, E3; reflexivity..|apply rel_bind; [apply rel_tsext|intros; apply rel_ret]]|].
    destruct (is0 KString x) eqn:E4.
    + destruct s as [|y s]; [|eapply rel_at_step; [intros l Hl; apply body_string; assumption|]; apply relc_described; discriminate].
      unfold rel_at. cbn [app]. rewrite !body_string by (assumption || discriminate). destruct (strict_described n (tlit x) t r) as [(e & E)|E].
      * rewrite E. repeat split; try discriminate.
        -- intros e' q Z Hq. injection Z as _ Z. exfalso. apply Hq. eapply list_loop. exact Z.
        -- destruct (strict_described n (tlit x) t' r') as [Z|Z]; [left; exact Z|right; exact Z].
        -- left. injection H as <-. exists wanted_def. split; [eapply described_fails; [exact E|reflexivity]|]. split; [reflexivity|]. intros _ _ _ _. right. exists [], x. split; [reflexivity|apply kind_eqb_true; exact E4].
      * assert (N : forall q, ~ beyond r (POk tt (q ++ t :: r))) by (intros q; apply no_suffix). destruct (described n (tlit x) (t :: r)) as [a u|e u|c]; cbn in E; repeat split; try discriminate; intros.
        -- injection H as -> ->. elim (N q E).
        -- injection H as -> ->. elim (N [] E).
        -- injection H as -> ->. elim (N q E).
        -- injection H as -> ->. elim (N [] E).
        -- injection H as -> ->. elim (N [] E).
    + apply (rel_at_eq _ (described n [])); [cbn [app]; apply body_plain; unfold begins; rewrite E1, E2, E3, E4; reflexivity..|]. apply relc_described. discriminate.
Qed.
Lemma rel_at_strict {A} (m : P A) : strict m -> (forall e, m (t :: r) = PErr e (t :: r) -> says e [] (m (t' :: r'))) -> rel_at [] m.
Proof.
  intros Hs Hw. unfold rel_at. cbn [app]. destruct (Hs t r) as [(e & E)|E]; [|apply (rel_at_eaten m E)]. rewrite E. repeat split; try discriminate.
  - intros e' q Z Hq. injection Z as _ Z. exfalso. apply Hq. eapply list_loop. exact Z.
  - exact (Hs t' r').
  - injection H as <-. apply Hw. exact E.
Qed.
Definition place (x : token) (o : option body) : option definition := option_map (mkDef (tline x) (tcol x)) o.
Lemma definition_is n x l : parse_definition fok n (x :: l) = (o <- parse_body fok n ;; pret (place x o)) (x :: l).
Proof. reflexivity. Qed.
Lemma mono_definition n : mono (parse_definition fok n).
Proof. intros [|x l]; [exact I|]. rewrite definition_is. pose proof (mono_body n). apply mono_bind; [assumption|]. ms. Qed.
Lemma strict_definition n : strict (parse_definition fok n).
Proof. intros x l. rewrite definition_is. apply strict_bind; [apply strict_body|]. ms. Qed.
Lemma rel_definition n : rel (parse_definition fok n).
Proof.
  split; [apply mono_definition|]. intros [|x s].
  - apply rel_at_strict; [apply strict_definition|]. intros e He. rewrite !definition_is in *.
    assert (R : rel (o <- parse_body fok n ;; pret (place t o))) by (apply rel_bind; [apply rel_body|intros; apply rel_ret]).
    destruct R as [_ R]. destruct (R []) as (_ & _ & _ & R4). destruct (R4 e He) as [_ [(W & E & Hpl & Hs)|Ho]]; [left|right; exact Ho]. exists W. split; [exact E|]. split; [exact Hpl|]. intros k ls Hi Hf.
    destruct (Hs k ls Hi Hf) as [Hp|Hp]; [left|right; exact Hp]. cbn [app] in Hp. unfold pbind, pret in *. destruct (parse_body fok n (t' :: r')); exact Hp.
  - apply (rel_at_eq _ (o <- parse_body fok n ;; pret (place x o))); [apply definition_is..|]. apply rel_bind; [apply rel_body|intros; apply rel_ret].
Qed.
Lemma mono_parse_loop n m : forall c, mono (parse_loop fok n m c).
Proof. pose proof (mono_definition n). induction m as [|m IH]; intros c; cbn [parse_loop]; ms. apply IH. Qed.
Theorem loop_says n m : forall c s e, parse_loop fok n m c (s ++ t :: r) = PErr e (t :: r) -> says e s (parse_loop fok n m c (s ++ t' :: r')).
Proof.
  induction m as [|m IH]; intros c s e He; [discriminate|]. cbn [parse_loop] in *.
  set (k := fun o : option definition => match o with None => pcrash NilDeref | Some d => _ end) in He.
  change (parse_loop fok n (S m) c) with (pbind (parse_definition fok n) k).
  assert (Mk : forall o, mono (k o)). { intros [d|]; [|apply mono_crash]. subst k. cbv beta iota. pose proof (mono_parse_loop n m). ms. apply H. }
  destruct (rel_definition n) as [Md R]. destruct (R s) as (R1 & R2 & R3 & R4). pose proof (Md (s ++ t :: r)) as Ms.
  unfold pbind in He. destruct (parse_definition fok n (s ++ t :: r)) as [o u|e0 u|cr] eqn:Ed; [|injection He as -> ->|discriminate].
  2:{ destruct (R4 e eq_refl) as [_ [(W & E & Hpl & Hs)|Ho]]; [left|right; exact Ho]. exists W. split; [exact E|]. split; [exact Hpl|]. intros kd ls Hi Hf.
      destruct (Hs kd ls Hi Hf) as [Hp|Hp]; [left; apply beyond_bind; assumption|right; exact Hp]. }
  destruct o as [d|]; [|discriminate]. pose proof (Mk (Some d) u) as Mu. rewrite He in Mu. destruct (middle _ [] _ _ _ Ms Mu) as (p1 & q & Eu & ->). rewrite app_nil_r in *. subst u.
  subst k. cbv beta iota in He. set (k := fun o : option definition => match o with None => pcrash NilDeref | Some d => _ end) in *.
  destruct q as [|x q].
  - rewrite app_nil_r in *. cbn [app] in He. unfold peek0 in *. unfold pbind at 1 in He. rewrite peek_is in He.
    destruct (is0 KIllegal t) eqn:It.
    { left. unfold perr, pfail, pbind in He. cbn [tok] in He. injection He as <-. exists []. split; [reflexivity|]. split; [reflexivity|]. intros k0 ls []. }
    unfold pbind at 1 in He. rewrite peek_is in He. destruct (is0 KEOF t) eqn:Et; [discriminate|].
    assert (Hl : says e [] (parse_loop fok n m (count_def c (def_body d)) ([] ++ t' :: r'))).
    { apply IH. unfold pbind in He. cbn [app]. destruct (parse_loop fok n m (count_def c (def_body d)) (t :: r)); [discriminate| |discriminate]. congruence. }
    apply (says_lift e p1 []) in Hl. rewrite app_nil_r in Hl. destruct Hl as [(W & E & Hpl & Hs)|Ho]; [left|right; exact Ho]. exists W. split; [exact E|]. split; [exact Hpl|]. intros kd ls Hi0 Hf.
    destruct (R3 (Some d) eq_refl) as [E2|Hp]; [|left; apply beyond_bind; assumption].
    unfold pbind at 1. rewrite E2. subst k. cbv beta iota. unfold pbind at 1. rewrite peek_is.
    assert (Hi : is0 KIllegal t' = false) by (unfold is0; destruct (tkind t'); try reflexivity; congruence). rewrite Hi.
    unfold pbind at 1. rewrite peek_is, eof_not.
    destruct (Hs kd ls Hi0 Hf) as [Hp|Hp]; [left|right; exact Hp]. cbn [app] in Hp. apply beyond_bind; [exact Hp|ms].
  - apply says_lift. unfold pbind at 1. rewrite (R1 (Some d) (x :: q) eq_refl ltac:(discriminate)). subst k. cbv beta iota. cbn [app] in He |- *. unfold peek0 in *.
    unfold pbind at 1 in He. rewrite peek_is in He. unfold pbind at 1. rewrite peek_is. destruct (is0 KIllegal x).
    { exfalso. unfold perr, pfail, pbind in He. cbn [tok] in He. injection He as _ _ Z. apply (f_equal (@List.length token)) in Z. rewrite app_length in Z. cbn in Z. lia. }
    unfold pbind at 1 in He. rewrite peek_is in He. unfold pbind at 1. rewrite peek_is. destruct (is0 KEOF x); [discriminate|].
    assert (Hl : says e (x :: q) (parse_loop fok n m (count_def c (def_body d)) ((x :: q) ++ t' :: r'))).
    { apply IH. unfold pbind in He. cbn [app]. destruct (parse_loop fok n m (count_def c (def_body d)) (x :: q ++ t :: r)); [discriminate| |discriminate]. congruence. }
    destruct Hl as [(W & E & Hpl & Hs)|Ho]; [left|right; exact Ho]. exists W. split; [exact E|]. split; [exact Hpl|]. intros kd ls Hi0 Hf.
    destruct (Hs kd ls Hi0 Hf) as [Hp|Hp]; [left|right; exact Hp]. cbn [app] in Hp. apply beyond_bind; [exact Hp|ms].
Qed.
End Swap.
