(** * ParserWp: weakest-precondition rules for the parser model. *)
From Verif Require Import Base Utf8 Lexer AST Parser Grammar.
Local Open Scope p_scope.

(** ** Token lists as the lexer delivers them: only the last token is EOF or Illegal. *)
Fixpoint wf (ts : list token) : Prop :=
  match ts with
  | [] => False
  | t :: r => if is_last t then r = [] else wf r
  end.

Lemma wf_cons ts : wf ts -> exists t r, ts = t :: r.
Proof. destruct ts as [|t r]; [contradiction|]. intros _. exists t, r. reflexivity. Qed.

Definition lastk (k : kind) : bool := match k with KEOF | KIllegal => true | _ => false end.
Lemma wf_tail k lit l c r : lastk k = false -> wf (mkTok k lit l c :: r) -> wf r.
Proof. intros Hk H. cbn in H. unfold is_last in H. cbn in H. destruct k; try discriminate; exact H. Qed.

(** ** Weakest preconditions. *)
Definition wp {A} (m : P A) (ts : list token) (Q : A -> list token -> Prop) (E : list token -> Prop) : Prop :=
  match m ts with POk a r => Q a r | PErr _ r => E r | PCrash _ => False end.

Lemma wp_bind {A C} (m : P A) (k : A -> P C) ts Q E :
  wp m ts (fun a r => wp (k a) r Q E) E -> wp (pbind m k) ts Q E.
Proof. unfold wp, pbind. destruct (m ts); auto. Qed.
Lemma wp_ret {A} (a : A) ts (Q : A -> list token -> Prop) (E : list token -> Prop) : Q a ts -> wp (pret a) ts Q E.
Proof. exact (fun H => H). Qed.
Lemma wp_fail {A} e ts (Q : A -> list token -> Prop) (E : list token -> Prop) : E ts -> wp (pfail e) ts Q E.
Proof. exact (fun H => H). Qed.
Lemma wp_perr {A} ws ts (Q : A -> list token -> Prop) (E : list token -> Prop) : wf ts -> E ts -> wp (perr ws) ts Q E.
Proof. intros Hw He. destruct (wf_cons _ Hw) as (t & r & ->). exact He. Qed.
Lemma wp_weaken {A} (m : P A) ts (Q Q' : A -> list token -> Prop) (E E' : list token -> Prop) :
  wp m ts Q E -> (forall a r, Q a r -> Q' a r) -> (forall r, E r -> E' r) -> wp m ts Q' E'.
Proof. unfold wp. destruct (m ts); auto. Qed.

(** A test on the current token that only holds of tokens that are not the last. *)
Definition proper (p : token -> bool) : Prop := forall t, p t = true -> is_last t = false.
Lemma proper_is0 k : lastk k = false -> proper (is0 k).
Proof. intros Hk [k' l n c] H. unfold is0 in H. unfold is_last. cbn in *. destruct k, k'; try discriminate; reflexivity. Qed.
Lemma proper_is1 k l : lastk k = false -> proper (is1 k l).
Proof. intros Hk t H. apply andb_prop in H. exact (proper_is0 k Hk t (proj1 H)). Qed.
Lemma proper_isn k l : lastk k = false -> proper (isn k l).
Proof. intros Hk t H. apply andb_prop in H. exact (proper_is0 k Hk t (proj1 H)). Qed.

Lemma kind_eqb_true a b : kind_eqb a b = true -> a = b.
Proof. destruct a, b; try discriminate; reflexivity. Qed.
Lemma kind_eqb_refl a : kind_eqb a a = true.
Proof. destruct a; reflexivity. Qed.
Lemma is0_term k t r : is0 k t = true -> terminal k (tlit t) (t :: r) r.
Proof. destruct t as [k' lit l c]. unfold is0. cbn. intros H. apply kind_eqb_true in H. subst. constructor. Qed.
Lemma is1_term k l t r : is1 k l t = true -> terminal k l (t :: r) r.
Proof.
  destruct t as [k' lit ln c]. unfold is1. cbn. intros H. apply andb_prop in H. destruct H as [H1 H2].
  apply kind_eqb_true in H1. apply beqb_true in H2. subst. constructor.
Qed.
Lemma is1_neg k l t r : is1 k l t = false -> forall r', ~ terminal k l (t :: r) r'.
Proof.
  intros H r' H'. inversion H'; subst. unfold is1 in H. cbn in H. rewrite kind_eqb_refl, beqb_refl in H. discriminate.
Qed.
Lemma isn_term k ls t r : isn k ls t = true -> terminal k (tlit t) (t :: r) r /\ In (tlit t) ls.
Proof.
  intros H. apply andb_prop in H. destruct H as [H1 H2]. split; [apply is0_term; exact H1|apply inb_In; exact H2].
Qed.

Lemma advance_ok t r : wf (t :: r) -> is_last t = false -> advance (t :: r) = POk tt r /\ wf r.
Proof.
  intros Hw Ht. cbn in Hw. rewrite Ht in Hw. split; [|exact Hw].
  destruct (wf_cons _ Hw) as (t2 & r2 & ->). reflexivity.
Qed.

Lemma wp_skip p ts (Q : bool -> list token -> Prop) (E : list token -> Prop) : proper p -> wf ts ->
  (forall t r, ts = t :: r -> p t = true -> wf r -> Q true r) ->
  (forall t r, ts = t :: r -> p t = false -> Q false ts) -> wp (skip p) ts Q E.
Proof.
  intros Hp Hw H1 H2. destruct (wf_cons _ Hw) as (t & r & ->). unfold wp, skip, pbind, tok.
  destruct (p t) eqn:E1.
  - destruct (advance_ok t r Hw (Hp t E1)) as [-> Hr]. cbn. eapply H1; eauto.
  - cbn. eapply H2; eauto.
Qed.
Lemma wp_consume p ts (Q : option token -> list token -> Prop) (E : list token -> Prop) : proper p -> wf ts ->
  (forall t r, ts = t :: r -> p t = true -> wf r -> Q (Some t) r) ->
  (forall t r, ts = t :: r -> p t = false -> Q None ts) -> wp (consume p) ts Q E.
Proof.
  intros Hp Hw H1 H2. destruct (wf_cons _ Hw) as (t & r & ->). unfold wp, consume, pbind, tok.
  destruct (p t) eqn:E1.
  - destruct (advance_ok t r Hw (Hp t E1)) as [-> Hr]. cbn. eapply H1; eauto.
  - cbn. eapply H2; eauto.
Qed.
Lemma wp_must p w ts (Q : token -> list token -> Prop) (E : list token -> Prop) : proper p -> wf ts ->
  (forall t r, ts = t :: r -> p t = true -> wf r -> Q t r) -> E ts -> wp (must p w) ts Q E.
Proof.
  intros Hp Hw H1 H2. destruct (wf_cons _ Hw) as (t & r & ->). unfold wp, must, pbind, tok.
  destruct (p t) eqn:E1.
  - destruct (advance_ok t r Hw (Hp t E1)) as [-> Hr]. cbn. eapply H1; eauto.
  - cbn. exact H2.
Qed.
Lemma wp_peek p ts (Q : bool -> list token -> Prop) (E : list token -> Prop) : wf ts ->
  (forall t r, ts = t :: r -> Q (p t) ts) -> wp (peek p) ts Q E.
Proof. intros Hw H. destruct (wf_cons _ Hw) as (t & r & ->). cbn. eapply H; eauto. Qed.

(** The forms used by the parser. *)
Lemma wp_skip1 k l ts (Q : bool -> list token -> Prop) (E : list token -> Prop) : lastk k = false -> wf ts ->
  (forall r, terminal k (B l) ts r -> wf r -> List.length ts = S (List.length r) -> Q true r) ->
  ((forall r, ~ terminal k (B l) ts r) -> Q false ts) -> wp (skip1 k l) ts Q E.
Proof.
  intros Hk Hw H1 H2. apply wp_skip; [apply proper_is1; exact Hk|exact Hw| |].
  - intros t r -> Ht Hr. apply H1; [apply is1_term; exact Ht|exact Hr|reflexivity].
  - intros t r -> Ht. apply H2. apply is1_neg. exact Ht.
Qed.
Lemma wp_peek1 k l ts (Q : bool -> list token -> Prop) (E : list token -> Prop) : wf ts ->
  (forall r, terminal k (B l) ts r -> Q true ts) ->
  ((forall r, ~ terminal k (B l) ts r) -> Q false ts) -> wp (peek1 k l) ts Q E.
Proof.
  intros Hw H1 H2. apply wp_peek; [exact Hw|]. intros t r ->. destruct (is1 k (B l) t) eqn:Et.
  - eapply H1. apply is1_term. exact Et.
  - apply H2. apply is1_neg. exact Et.
Qed.
Lemma wp_must1 k l ts (Q : token -> list token -> Prop) (E : list token -> Prop) : lastk k = false -> wf ts ->
  (forall t r, terminal k (B l) ts r -> wf r -> List.length ts = S (List.length r) -> Q t r) -> E ts -> wp (must1 k l) ts Q E.
Proof.
  intros Hk Hw H1 H2. apply wp_must; [apply proper_is1; exact Hk|exact Hw| |exact H2].
  intros t r -> Ht Hr. apply H1; [apply is1_term; exact Ht|exact Hr|reflexivity].
Qed.
Lemma wp_must0 k ts (Q : token -> list token -> Prop) (E : list token -> Prop) : lastk k = false -> wf ts ->
  (forall t r, terminal k (tlit t) ts r -> wf r -> List.length ts = S (List.length r) -> Q t r) -> E ts -> wp (must0 k) ts Q E.
Proof.
  intros Hk Hw H1 H2. apply wp_must; [apply proper_is0; exact Hk|exact Hw| |exact H2].
  intros t r -> Ht Hr. apply H1; [apply is0_term; exact Ht|exact Hr|reflexivity].
Qed.
(** the same, with what is known when they fail *)
Lemma wp_must_not p w ts (Q : token -> list token -> Prop) (E : list token -> Prop) : proper p -> wf ts ->
  (forall t r, ts = t :: r -> p t = true -> wf r -> Q t r) -> (forall t r, ts = t :: r -> p t = false -> E ts) -> wp (must p w) ts Q E.
Proof.
  intros Hp Hw H1 H2. destruct (wf_cons _ Hw) as (t & r & ->). unfold wp, must, pbind, tok.
  destruct (p t) eqn:E1.
  - destruct (advance_ok t r Hw (Hp t E1)) as [-> Hr]. cbn. eapply H1; eauto.
  - cbn. eapply H2; eauto.
Qed.
Lemma wp_must1_not k l ts (Q : token -> list token -> Prop) (E : list token -> Prop) : lastk k = false -> wf ts ->
  (forall t r, terminal k (B l) ts r -> wf r -> List.length ts = S (List.length r) -> Q t r) -> ((forall r, ~ terminal k (B l) ts r) -> E ts) -> wp (must1 k l) ts Q E.
Proof.
  intros Hk Hw H1 H2. apply wp_must_not; [apply proper_is1; exact Hk|exact Hw| |].
  - intros t r -> Ht Hr. apply H1; [apply is1_term; exact Ht|exact Hr|reflexivity].
  - intros t r -> Ht. apply H2. apply is1_neg. exact Ht.
Qed.
Lemma wp_must0_not k ts (Q : token -> list token -> Prop) (E : list token -> Prop) : lastk k = false -> wf ts ->
  (forall t r, terminal k (tlit t) ts r -> wf r -> List.length ts = S (List.length r) -> Q t r) -> ((forall lit r, ~ terminal k lit ts r) -> E ts) -> wp (must0 k) ts Q E.
Proof.
  intros Hk Hw H1 H2. apply wp_must_not; [apply proper_is0; exact Hk|exact Hw| |].
  - intros t r -> Ht Hr. apply H1; [apply is0_term; exact Ht|exact Hr|reflexivity].
  - intros t r -> Ht. apply H2. intros lit r' H'. inversion H'; subst. unfold is0 in Ht. cbn in Ht. rewrite kind_eqb_refl in Ht. discriminate.
Qed.
Lemma wp_consume0 k ts (Q : option token -> list token -> Prop) (E : list token -> Prop) : lastk k = false -> wf ts ->
  (forall t r, terminal k (tlit t) ts r -> wf r -> List.length ts = S (List.length r) -> Q (Some t) r) ->
  ((forall lit r, ~ terminal k lit ts r) -> Q None ts) -> wp (consume0 k) ts Q E.
Proof.
  intros Hk Hw H1 H2. apply wp_consume; [apply proper_is0; exact Hk|exact Hw| |].
  - intros t r -> Ht Hr. apply H1; [apply is0_term; exact Ht|exact Hr|reflexivity].
  - intros t r -> Ht. apply H2. intros lit r' H'. inversion H'; subst. unfold is0 in Ht. cbn in Ht.
    rewrite kind_eqb_refl in Ht. discriminate.
Qed.
Lemma wp_need k l ts (Q : unit -> list token -> Prop) (E : list token -> Prop) : lastk k = false -> wf ts ->
  (forall r, terminal k (B l) ts r -> wf r -> List.length ts = S (List.length r) -> Q tt r) -> E ts -> wp (need k l) ts Q E.
Proof.
  intros Hk Hw H1 H2. unfold need. apply wp_bind. apply wp_skip1; [exact Hk|exact Hw| |].
  - intros r H3 H4 H5. apply wp_ret. auto.
  - intros _. apply wp_perr; assumption.
Qed.
Lemma wp_at_close s ts (Q : bool -> list token -> Prop) (E : list token -> Prop) : wf ts ->
  (forall b, Q b ts) -> wp (at_close s) ts Q E.
Proof.
  intros Hw H. unfold at_close. apply wp_bind. apply wp_peek1; [exact Hw| |].
  - intros r _. apply wp_ret. apply H.
  - intros _. apply wp_peek; [exact Hw|]. intros t r ->. apply H.
Qed.

(** [spec d n p g]: on a well-formed token list of length at most [n], [p] ends in an error or derives [g],
    consuming at least [d] tokens. *)
Definition spec {A} (d n : nat) (p : P A) (g : G A) : Prop :=
  forall ts (Q : A -> list token -> Prop) (E : list token -> Prop), wf ts -> (List.length ts <= n)%nat ->
    (forall a r, g ts a r -> wf r -> (List.length r + d <= List.length ts)%nat -> Q a r) ->
    (forall r, wf r -> (List.length r <= List.length ts)%nat -> E r) -> wp p ts Q E.

Lemma spec_mono {A} d n p (g g' : G A) : spec d n p g -> (forall ts a r, g ts a r -> g' ts a r) -> spec d n p g'.
Proof. intros H Hg ts Q E Hw Hl HQ HE. apply H; auto. Qed.

Lemma wf_len ts : wf ts -> (1 <= List.length ts)%nat.
Proof. destruct ts; [contradiction|cbn; lia]. Qed.

Lemma loop_until_spec {A} n m (body : P A) g c ts (Q : list A -> list token -> Prop) (E : list token -> Prop) : spec 1 n body g ->
  wf ts -> (List.length ts <= n)%nat -> (List.length ts <= m)%nat ->
  (forall l r1 r, many g ts l r1 -> pun c r1 r -> wf r -> (List.length r + 1 <= List.length ts)%nat -> Q l r) ->
  (forall r, wf r -> (List.length r <= List.length ts)%nat -> E r) ->
  wp (loop_until m (skip1 KPunct c) body) ts Q E.
Proof.
  intros Hb. revert ts Q. induction m as [|m IH]; intros ts Q Hw Hn Hm HQ HE.
  { pose proof (wf_len _ Hw). lia. }
  cbn [loop_until]. apply wp_bind. apply wp_skip1; [reflexivity|exact Hw| |].
  - intros r H1 H2 H3. apply wp_ret. eapply HQ; [constructor|exact H1|exact H2|lia].
  - intros _. apply wp_bind. apply Hb; [exact Hw|exact Hn| |exact HE]. intros a r Hg Hr Hl.
    apply wp_bind. apply IH; [exact Hr|lia|lia| |].
    + intros l r1 r2 H1 H2 H3 H4. apply wp_ret. eapply HQ; [econstructor; eauto|exact H2|exact H3|lia].
    + intros r2 H1 H2. apply HE; [exact H1|lia].
Qed.

Lemma loop_while_spec {A} n m (body : P A) g c ts (Q : list A -> list token -> Prop) (E : list token -> Prop) : spec 1 n body g ->
  wf ts -> (List.length ts <= n)%nat -> (List.length ts <= m)%nat ->
  (forall l r, many g ts l r -> wf r -> (List.length r <= List.length ts)%nat -> Q l r) ->
  (forall r, wf r -> (List.length r <= List.length ts)%nat -> E r) ->
  wp (loop_until m (pnot (peek1 KPunct c)) body) ts Q E.
Proof.
  intros Hb. revert ts Q. induction m as [|m IH]; intros ts Q Hw Hn Hm HQ HE.
  { pose proof (wf_len _ Hw). lia. }
  cbn [loop_until]. apply wp_bind. unfold pnot at 1. apply wp_bind. apply wp_peek1; [exact Hw| |].
  - intros r0 _. apply wp_ret. cbn [negb].
    apply wp_bind. apply Hb; [exact Hw|exact Hn| |exact HE]. intros a r Hg Hr Hl.
    apply wp_bind. apply IH; [exact Hr|lia|lia| |].
    + intros l r2 H1 H3 H4. apply wp_ret. eapply HQ; [econstructor; eauto|exact H3|lia].
    + intros r2 H1 H2. apply HE; [exact H1|lia].
  - intros _. apply wp_ret. cbn [negb]. apply wp_ret. apply HQ; [constructor|exact Hw|lia].
Qed.

(** do-loops whose exit test only peeks *)
Lemma do_loop_spec {A} n m (body : P A) g (fin : P bool) ts (Q : list A -> list token -> Prop) (E : list token -> Prop) : spec 1 n body g ->
  (forall ts (Q : bool -> list token -> Prop) (E : list token -> Prop), wf ts -> (forall b, Q b ts) -> wp fin ts Q E) ->
  wf ts -> (List.length ts <= n)%nat -> (List.length ts <= m)%nat ->
  (forall l r, many1 g ts l r -> wf r -> (List.length r + 1 <= List.length ts)%nat -> Q l r) ->
  (forall r, wf r -> (List.length r <= List.length ts)%nat -> E r) ->
  wp (do_loop m body fin) ts Q E.
Proof.
  intros Hb Hf. revert ts Q. induction m as [|m IH]; intros ts Q Hw Hn Hm HQ HE.
  { pose proof (wf_len _ Hw). lia. }
  cbn [do_loop]. apply wp_bind. apply Hb; [exact Hw|exact Hn| |exact HE]. intros a r Hg Hr Hl.
  apply wp_bind. apply Hf; [exact Hr|]. intros [|].
  - apply wp_ret. apply HQ; [|exact Hr|lia]. split; [econstructor; [exact Hg|constructor]|discriminate].
  - apply wp_bind. apply IH; [exact Hr|lia|lia| |].
    + intros l r1 [H1 _] H3 H4. apply wp_ret. apply HQ; [|exact H3|lia]. split; [econstructor; eauto|discriminate].
    + intros r2 H1 H2. apply HE; [exact H1|lia].
Qed.

(** do-loops that end by consuming a closer *)
Lemma do_loop_close_spec {A} n m (body : P A) g c ts (Q : list A -> list token -> Prop) (E : list token -> Prop) : spec 1 n body g ->
  wf ts -> (List.length ts <= n)%nat -> (List.length ts <= m)%nat ->
  (forall l r1 r, many1 g ts l r1 -> pun c r1 r -> wf r -> (List.length r + 2 <= List.length ts)%nat -> Q l r) ->
  (forall r, wf r -> (List.length r <= List.length ts)%nat -> E r) ->
  wp (do_loop m body (skip1 KPunct c)) ts Q E.
Proof.
  intros Hb. revert ts Q. induction m as [|m IH]; intros ts Q Hw Hn Hm HQ HE.
  { pose proof (wf_len _ Hw). lia. }
  cbn [do_loop]. apply wp_bind. apply Hb; [exact Hw|exact Hn| |exact HE]. intros a r Hg Hr Hl.
  apply wp_bind. apply wp_skip1; [reflexivity|exact Hr| |].
  - intros r1 H1 H2 H3. apply wp_ret. eapply HQ; [|exact H1|exact H2|lia].
    split; [econstructor; [exact Hg|constructor]|discriminate].
  - intros _. apply wp_bind. apply IH; [exact Hr|lia|lia| |].
    + intros l r1 r2 [H1 _] H2 H3 H4. apply wp_ret. eapply HQ; [|exact H2|exact H3|lia]. split; [econstructor; eauto|discriminate].
    + intros r2 H1 H2. apply HE; [exact H1|lia].
Qed.

(** do-loops with a separator *)
Lemma do_loop_sep_spec {A} n m (body : P A) g c ts (Q : list A -> list token -> Prop) (E : list token -> Prop) : spec 1 n body g ->
  wf ts -> (List.length ts <= n)%nat -> (List.length ts <= m)%nat ->
  (forall l r, sep1 c g ts l r -> wf r -> (List.length r + 1 <= List.length ts)%nat -> Q l r) ->
  (forall r, wf r -> (List.length r <= List.length ts)%nat -> E r) ->
  wp (do_loop m body (pnot (skip1 KPunct c))) ts Q E.
Proof.
  intros Hb. revert ts Q. induction m as [|m IH]; intros ts Q Hw Hn Hm HQ HE.
  { pose proof (wf_len _ Hw). lia. }
  cbn [do_loop]. apply wp_bind. apply Hb; [exact Hw|exact Hn| |exact HE]. intros a r Hg Hr Hl.
  apply wp_bind. unfold pnot at 1. apply wp_bind. apply wp_skip1; [reflexivity|exact Hr| |].
  - intros r1 H1 H2 H3. apply wp_ret. cbn [negb]. apply wp_bind. apply IH; [exact H2|lia|lia| |].
    + intros l r2 Hs H4 H5. apply wp_ret. eapply HQ; [eapply sep_more; eauto|exact H4|lia].
    + intros r2 H4 H5. apply HE; [exact H4|lia].
  - intros _. apply wp_ret. cbn [negb]. apply wp_ret. apply HQ; [apply sep_one; exact Hg|exact Hr|lia].
Qed.

(** ** Atoi *)
Lemma is_digit_b_iff b : is_digit_b b = true <-> (48 <= zb b <= 57)%Z.
Proof. unfold is_digit_b, is_digit. rewrite andb_true_iff, !Z.leb_le. reflexivity. Qed.

Lemma dec_value_app s : forall t acc, dec_value acc (s ++ t) =
  match dec_value acc s with Some z => dec_value z t | None => None end.
Proof. induction s as [|b s IH]; intros t acc; cbn; [destruct acc; reflexivity|]. destruct (is_digit_b b); [apply IH|reflexivity]. Qed.

Lemma dec_nat_sound s z : dec_nat s = Some z -> digits_denote s z.
Proof.
  revert z. induction s as [|b s IH] using rev_ind; intros z; [discriminate|].
  destruct s as [|b0 s].
  - cbn. destruct (is_digit_b b) eqn:Hb; [|discriminate]. intros H. injection H as <-. apply is_digit_b_iff in Hb.
    replace (10 * 0 + (zb b - 48))%Z with (zb b - 48)%Z by lia. constructor. exact Hb.
  - intros H. change (dec_value 0 ((b0 :: s) ++ [b]) = Some z) in H. rewrite dec_value_app in H.
    change (dec_value 0 (b0 :: s)) with (dec_nat (b0 :: s)) in H.
    destruct (dec_nat (b0 :: s)) as [z0|]; [|discriminate]. cbn in H. destruct (is_digit_b b) eqn:Hb; [|discriminate].
    injection H as <-. apply is_digit_b_iff in Hb. apply (dd_snoc (b0 :: s)); [apply IH; reflexivity|exact Hb].
Qed.
Lemma digits_nonempty s z : digits_denote s z -> s <> [].
Proof. destruct 1; [discriminate|]. destruct s; discriminate. Qed.
Lemma dec_nat_complete s z : digits_denote s z -> dec_nat s = Some z.
Proof.
  induction 1 as [b Hb|s z b H IH Hb].
  - cbn. apply is_digit_b_iff in Hb. rewrite Hb. reflexivity.
  - pose proof (digits_nonempty _ _ H) as Hn. destruct s as [|b0 s]; [congruence|].
    change (dec_value 0 ((b0 :: s) ++ [b]) = Some (10 * z + (zb b - 48))%Z). rewrite dec_value_app.
    change (dec_value 0 (b0 :: s)) with (dec_nat (b0 :: s)). rewrite IH. cbn. apply is_digit_b_iff in Hb. rewrite Hb. reflexivity.
Qed.
Lemma digits_head s z : digits_denote s z -> exists b t, s = b :: t /\ (48 <= zb b <= 57)%Z.
Proof.
  induction 1 as [b Hb|s z b H (b0 & t & -> & Hb0) Hb]; [exists b, []; auto|].
  exists b0, (t ++ [b]). split; [reflexivity|exact Hb0].
Qed.
Lemma in_int64_iff z : in_int64 z = true <-> int64 z.
Proof. unfold in_int64, int64. rewrite andb_true_iff, !Z.leb_le. lia. Qed.
Lemma atoi_sound s z : atoi s = Some z -> int_denotes Any s z /\ int64 z.
Proof.
  unfold atoi. destruct s as [|b s]; [discriminate|].
  assert (Hfin : forall o, match o with Some z => if in_int64 z then Some z else None | None => None end = Some z ->
    o = Some z /\ int64 z).
  { intros [z'|]; [|discriminate]. destruct (in_int64 z') eqn:Hz; [|discriminate]. intros H. injection H as <-.
    split; [reflexivity|apply in_int64_iff; exact Hz]. }
  intros H. apply Hfin in H. destruct H as [H H64]. split; [|exact H64].
  destruct (Ascii.eqb_spec b "-").
  { subst. destruct (dec_nat s) as [z0|] eqn:Hd; [|discriminate]. cbn in H. injection H as <-. apply id_neg, dec_nat_sound, Hd. }
  destruct (Ascii.eqb_spec b "+").
  { subst. apply id_plus; [discriminate|]. apply dec_nat_sound, H. }
  apply id_pos, dec_nat_sound, H.
Qed.
Lemma atoi_complete lv s z : int_denotes lv s z -> int64 z -> atoi s = Some z.
Proof.
  intros H H64. apply in_int64_iff in H64. unfold atoi. destruct H as [s z H|s z H|s z _ H].
  - destruct (digits_head _ _ H) as (b & t & Hs & Hb). rewrite (dec_nat_complete _ _ H). subst s.
    destruct (Ascii.eqb_spec b "-"); [subst b; change (zb "-"%char) with 45%Z in Hb; change (zb "+"%char) with 43%Z in Hb; lia|].
    destruct (Ascii.eqb_spec b "+"); [subst b; change (zb "-"%char) with 45%Z in Hb; change (zb "+"%char) with 43%Z in Hb; lia|]. rewrite H64. reflexivity.
  - cbn [Ascii.eqb]. rewrite (dec_nat_complete _ _ H). cbn. rewrite H64. reflexivity.
  - rewrite (dec_nat_complete _ _ H). cbn. rewrite H64. reflexivity.
Qed.
