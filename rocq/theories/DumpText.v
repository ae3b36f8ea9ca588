(** * DumpText: texts made of separated tokens, and how they lex (for the proof of C15). *)
From Verif Require Import Base Utf8 Utf8Proofs Lexer LexSpec LexProps.
Local Open Scope Z_scope.

Definition okc (c : Z) : Prop := c = 9 \/ c = 10 \/ 32 <= c.
Definition delim (c : Z) : Prop := c = 32 \/ c = 10 \/ c = 44 \/ punctuator c.
Definition bad : list Z := 92 :: 92 :: triple.
(** A token that needs a delimiter after it. *)
Definition word (k : kind) (w : list Z) (lit : bytes) : Prop :=
  exists stop, lexeme k w lit stop /\ (forall c, delim c -> ~ stop c) /\ clean w /\ Forall okc w /\ ~ contains bad w.

Inductive tx : bool -> list Z -> list (kind * bytes) -> bool -> Prop :=
| tx_nil b : tx b [] [] b
| tx_gap b c : c = 32 \/ c = 10 \/ c = 44 -> tx b [c] [] false
| tx_punct b c : punctuator c -> tx b [c] [(KPunct, utf8s [c])] false
| tx_spread : tx false [46; 46; 46] [(KPunct, B "...")] false
| tx_word k w lit : word k w lit -> tx false w [(k, lit)] true
| tx_app b s t b1 s' t' b' : tx b s t b1 -> tx b1 s' t' b' -> tx b (s ++ s') (t ++ t') b'
| tx_end b s t : tx b s t false -> tx b s t true
| tx_start s t b : tx true s t b -> tx false s t b.

Definition delim_start (r : list Z) : Prop := match r with [] => True | c :: _ => delim c end.
Definition kl' (k : stok) : kind * bytes := (skind k, slit k).

Lemma tx_lexing b s t b' : tx b s t b' -> forall rest, (b' = true -> delim_start rest) ->
  (b = true -> delim_start (s ++ rest)) /\
  forall pre sts r, lexing (pre ++ s) rest sts r -> exists st, lexing pre (s ++ rest) (st ++ sts) r /\ map kl' st = t.
Proof.
  induction 1 as [b|b c Hc|b c Hc| |k w lit Hw|b s t b1 s' t' b' H1 IH1 H2 IH2|b s t H IH|s t b H IH]; intros rest Hr.
  - split; [exact Hr|]. intros pre sts r L. exists []. rewrite app_nil_r in L. auto.
  - split; [intros _; cbn; unfold delim; tauto|]. intros pre sts r L. exists []. split; [|reflexivity]. cbn [app]. apply lg_ignored; [unfold ignored_char; lia|exact L].
  - split; [intros _; cbn; unfold delim; tauto|]. intros pre sts r L. exists [mkStok KPunct (utf8s [c]) pre [c]]. split; [|reflexivity].
    cbn [app]. apply (lg_token pre KPunct [c] _ nothing); [constructor; exact Hc|destruct rest; [exact I|intros []]|exact L].
  - split; [discriminate|]. intros pre sts r L. exists [mkStok KPunct (B "...") pre [46; 46; 46]]. split; [|reflexivity].
    apply (lg_token pre KPunct [46; 46; 46] _ nothing); [constructor|destruct rest; [exact I|intros []]|exact L].
  - split; [discriminate|]. intros pre sts r L. destruct Hw as (stop & Hl & Hs & _). exists [mkStok k lit pre w]. split; [|reflexivity].
    cbn [app]. apply (lg_token pre k w lit stop); [exact Hl| |exact L]. specialize (Hr eq_refl). destruct rest; [exact I|]. cbn in *. auto.
  - destruct (IH2 rest Hr) as [A1 A2]. destruct (IH1 (s' ++ rest) A1) as [B1 B2]. rewrite <- app_assoc. split; [exact B1|].
    intros pre sts r L. rewrite app_assoc in L. destruct (A2 _ _ _ L) as (st & L1 & E1). destruct (B2 _ _ _ L1) as (st' & L2 & E2).
    exists (st' ++ st). rewrite map_app, E1, E2, <- app_assoc. auto.
  - apply IH. discriminate.
  - destruct (IH rest Hr) as [A1 A2]. split; [discriminate|exact A2].
Qed.

Lemma delim_okc c : delim c -> okc c /\ scalar c /\ c <> 0 /\ ~ In c bad.
Proof.
  intros H. assert (Hc : In c [32; 10; 44; 33; 36; 38; 40; 41; 58; 61; 64; 91; 93; 123; 124; 125]).
  { unfold delim, punctuator in H. cbn in *. lia. }
  unfold okc, scalar. assert (~ In c bad). { unfold bad, triple. cbn in *. lia. } cbn in Hc. split; [lia|]. split; [lia|]. split; [lia|assumption].
Qed.

Lemma tx_chars b s t b' : tx b s t b' -> clean s /\ Forall okc s.
Proof.
  assert (D : forall c, delim c -> clean [c] /\ Forall okc [c]).
  { intros c H. destruct (delim_okc c H) as (A1 & A2 & A3 & _). split; constructor; auto; constructor. }
  induction 1 as [b|b c Hc|b c Hc| |k w lit Hw|b s t b1 s' t' b' H1 IH1 H2 IH2|b s t H IH|s t b H IH]; try assumption.
  - split; constructor.
  - apply D. unfold delim. tauto.
  - apply D. unfold delim. tauto.
  - unfold clean, scalar, okc. split; repeat constructor; lia.
  - destruct Hw as (stop & _ & _ & H1 & H2 & _). auto.
  - destruct IH1, IH2. unfold clean. rewrite !Forall_app. auto.
Qed.

(** No occurrence of [bad] straddles a delimiter. *)
Definition ends_free (x : list Z) : Prop := x = [] \/ exists y c, x = y ++ [c] /\ ~ In c bad.
Lemma contains_split p c a b : ~ In c p -> p <> [] -> contains p (a ++ c :: b) -> contains p a \/ contains p b.
Proof.
  intros Hc Hp (x & y & E). assert (H := app_eq_app a (c :: b) x (p ++ y)). destruct (H E) as (l & [[E1 E2]|[E1 E2]]); clear H.
  - (* a = x ++ l; p ++ y = l ++ c :: b *)
    symmetry in E2. apply app_eq_app in E2. destruct E2 as (m & [[F1 F2]|[F1 F2]]).
    + left. exists x, m. rewrite E1, F1. reflexivity.
    + destruct m as [|m0 m]; [|exfalso; apply Hc; rewrite F1; apply in_or_app; right; cbn in F2; injection F2 as -> _; left; reflexivity].
      rewrite app_nil_r in F1. subst l. left. exists x, []. rewrite E1, app_nil_r. reflexivity.
  - (* x = a ++ l; c :: b = l ++ p ++ y *)
    destruct l as [|l0 l].
    + cbn in E2. destruct p as [|p0 p]; [congruence|]. exfalso. apply Hc. cbn in E2. injection E2 as -> _. left. reflexivity.
    + cbn in E2. injection E2 as -> ->. right. exists l, y. reflexivity.
Qed.
Lemma not_contains_nil p : p <> [] -> ~ contains p [].
Proof. intros Hp (a & b & E). apply eq_sym, app_eq_nil in E as [_ E]. apply app_eq_nil in E as [E _]. congruence. Qed.
Lemma bad_ne : bad <> []. Proof. discriminate. Qed.
Lemma no_bad_word x w : ~ contains bad x -> ends_free x -> ~ contains bad w -> ~ contains bad (x ++ w).
Proof.
  intros Hx [->|(y & c & -> & Hc)] Hw; [exact Hw|]. rewrite <- app_assoc. cbn [app]. intros H.
  apply (contains_split bad c _ _ Hc bad_ne) in H. destruct H as [H|H]; [|exact (Hw H)].
  apply Hx. destruct H as (a & b & ->). exists a, (b ++ [c]). rewrite <- !app_assoc. reflexivity.
Qed.
Lemma no_bad_char x c : ~ In c bad -> ~ contains bad x -> ~ contains bad (x ++ [c]) /\ ends_free (x ++ [c]).
Proof.
  intros Hc Hx. split; [|right; eauto]. intros H. apply (contains_split bad c _ _ Hc bad_ne) in H. destruct H as [H|H]; [exact (Hx H)|].
  exact (not_contains_nil _ bad_ne H).
Qed.

Lemma tx_no_bad b s t b' : tx b s t b' -> forall x, ~ contains bad x -> (b = false -> ends_free x) ->
  ~ contains bad (x ++ s) /\ (b' = false -> ends_free (x ++ s)).
Proof.
  assert (D : forall c x, delim c -> ~ contains bad x -> ~ contains bad (x ++ [c]) /\ ends_free (x ++ [c])).
  { intros c x H Hx. apply no_bad_char; [apply delim_okc; exact H|exact Hx]. }
  induction 1 as [b|b c Hc|b c Hc| |k w lit Hw|b s t b1 s' t' b' H1 IH1 H2 IH2|b s t H IH|s t b H IH]; intros x Hx Hs.
  - rewrite app_nil_r. auto.
  - destruct (D c x) as [A1 A2]; [unfold delim; tauto|exact Hx|]. auto.
  - destruct (D c x) as [A1 A2]; [unfold delim; tauto|exact Hx|]. auto.
  - assert (N : ~ In 46 bad) by (unfold bad, triple; cbn; lia).
    destruct (no_bad_char x 46 N Hx) as [A1 _]. destruct (no_bad_char _ 46 N A1) as [A2 _]. destruct (no_bad_char _ 46 N A2) as [A3 A4].
    rewrite <- !app_assoc in A3, A4. auto.
  - split; [|discriminate]. destruct Hw as (stop & _ & _ & _ & _ & Hw). apply no_bad_word; auto.
  - destruct (IH1 x Hx Hs) as [A1 A2]. rewrite app_assoc. apply IH2; assumption.
  - destruct (IH x Hx Hs). split; [assumption|discriminate].
  - apply IH; [exact Hx|discriminate].
Qed.

Theorem tx_tokens cs toks b : tx false cs toks b ->
  exists ts s', lex_all (utf8s cs) = Ok ts s' /\ map shape ts = toks ++ [(KEOF, [])].
Proof.
  intros H. destruct (tx_chars _ _ _ _ H) as [Hc Ho].
  destruct (tx_lexing _ _ _ _ H [] (fun _ => I)) as [_ HL]. destruct (HL [] [] [] (lg_stop _ [])) as (st & L & E). rewrite !app_nil_r in L.
  destruct (tx_no_bad _ _ _ _ H [] (not_contains_nil _ bad_ne) (fun _ => or_introl eq_refl)) as [Hb _].
  destruct (lex_complete cs st [] Hc (or_intror (conj Ho Hb)) L (or_introl eq_refl)) as (ts & s' & E1 & E2).
  exists ts, s'. split; [exact E1|]. rewrite E2. f_equal. exact E.
Qed.
