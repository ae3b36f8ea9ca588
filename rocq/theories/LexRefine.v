(** * LexRefine: on clean sources the byte-level lexer computes exactly what the code-point lexer does. *)
From Verif Require Import Base Utf8 Utf8Proofs Lexer LexerTotal LexCP.
From Coq Require Import ZifyBool ZifyNat ZifyN.
Local Open Scope lex_scope.

(** A clean code point: a Unicode scalar value other than NUL. *)
Definition good (c : Z) : Prop := scalar c /\ c <> 0%Z.

Definition at_ (i : bytes) (s : lst) (cs : list Z) : Prop :=
  (pos s <= List.length i)%nat /\ skipn (pos s) i = utf8s cs /\ Forall good cs.

Definition adv (s : lst) (cs : list Z) : lst :=
  mkL (pos s + List.length (utf8s cs)) (lpos s + List.length cs) (line s).

Lemma adv_nil s : adv s [] = s.
Proof. unfold adv. cbn. rewrite !Nat.add_0_r. destruct s; reflexivity. Qed.

Lemma adv_adv s a b : adv (adv s a) b = adv s (a ++ b).
Proof. unfold adv. cbn. rewrite utf8s_app, !app_length. f_equal; lia. Qed.

Lemma at_adv i s a b : at_ i s (a ++ b) -> at_ i (adv s a) b.
Proof.
  intros (Hp & Hs & Hg). apply Forall_app in Hg as [Ha Hb].
  assert (HL : (List.length (skipn (pos s) i) = List.length (utf8s a) + List.length (utf8s b))%nat).
  { rewrite Hs, utf8s_app, app_length. reflexivity. }
  rewrite skipn_length in HL.
  repeat split; auto.
  - unfold adv; cbn. lia.
  - unfold adv; cbn. rewrite Nat.add_comm.
    rewrite <- (firstn_skipn (pos s) i) at 1.
    assert (Hf : List.length (firstn (pos s) i) = pos s) by (rewrite firstn_length; lia).
    rewrite skipn_app, Hf.
    replace (List.length (utf8s a) + pos s - pos s)%nat with (List.length (utf8s a)) by lia.
    rewrite Hs, utf8s_app, skipn_app, skipn_all, Nat.sub_diag. cbn.
    rewrite skipn_all2 by (rewrite Hf; lia). reflexivity.
Qed.

Lemma at_cons i s c t : at_ i s (c :: t) -> at_ i (adv s [c]) t.
Proof. intros H. apply (at_adv i s [c] t H). Qed.

Lemma at_good i s c t : at_ i s (c :: t) -> good c.
Proof. intros (_ & _ & H). inversion H; assumption. Qed.

Lemma at_length i s cs : at_ i s cs -> (pos s + List.length (utf8s cs) = List.length i)%nat.
Proof. intros (Hp & Hs & _). rewrite <- Hs, skipn_length. lia. Qed.

Lemma utf8s_length cs : (List.length cs <= List.length (utf8s cs))%nat.
Proof.
  induction cs as [|c cs IH]; [cbn; lia|]. rewrite utf8s_cons, app_length. cbn [List.length].
  pose proof (utf8_length c). lia.
Qed.

Lemma at_fuel i s cs : at_ i s cs -> (List.length cs + 2 <= fuel_of i)%nat.
Proof. intros H. apply at_length in H. pose proof (utf8s_length cs). unfold fuel_of. lia. Qed.

Lemma readr_nil i s : at_ i s [] -> readr i s = Ok (0%Z, 0) s.
Proof.
  intros (Hp & Hs & _). rewrite readr_eq by exact Hp. rewrite Hs. cbn. unfold eof, step. cbn.
  rewrite Nat.add_0_r. destruct s; reflexivity.
Qed.

Lemma readr_cons i s c t : at_ i s (c :: t) -> readr i s = Ok (c, List.length (utf8 c)) (adv s [c]).
Proof.
  intros (Hp & Hs & Hg). inversion Hg as [|? ? [Hsc Hnz] Hg']; subst.
  rewrite readr_eq by exact Hp. rewrite Hs, utf8s_cons.
  assert (E : next (utf8 c ++ utf8s t) = (c, List.length (utf8 c), List.length (utf8 c))).
  { pose proof (decode_utf8 c (utf8s t) Hsc) as Hd.
    destruct (utf8 c) as [|b u] eqn:Eu; [exfalso; apply (utf8_nonempty c); exact Eu|].
    pose proof (utf8_head c b u Hsc Eu) as Hh.
    cbn [app next]. destruct (zb b <? 128) eqn:Eb.
    - rewrite utf8_1 in Eu by (unfold scalar in Hsc; lia).
      apply (f_equal (fun l => (hd zero l, tl l))) in Eu. cbn [hd tl] in Eu. injection Eu as <- <-.
      rewrite zb_bz by (unfold scalar in Hsc; lia). reflexivity.
    - cbn [app] in Hd. rewrite Hd.
      assert (Hlen : (2 <= List.length (b :: u))%nat).
      { pose proof (utf8_length_1 c Hsc) as H1. rewrite Eu in H1. pose proof (utf8_length c) as H2. rewrite Eu in H2.
        destruct (Nat.eq_dec (List.length (b :: u)) 1) as [E1|]; [specialize (H1 E1)|]; lia. }
      destruct u as [|b2 u]; [cbn in Hlen; lia|]. reflexivity. }
  rewrite E. unfold adv, step. cbn [utf8s flat_map]. rewrite app_nil_r.
  pose proof (utf8_length c). destruct (Nat.eqb_spec (List.length (utf8 c)) 0); [lia|]. reflexivity.
Qed.

Lemma unread_adv i s c : unread (List.length (utf8 c)) i (adv s [c]) = Ok tt s.
Proof.
  unfold unread, adv. cbn [pos lpos line utf8s flat_map]. rewrite app_nil_r.
  destruct (Nat.ltb_spec (pos s + List.length (utf8 c)) (List.length (utf8 c))); [lia|].
  f_equal. destruct s; cbn. f_equal; lia.
Qed.

Lemma slice_at i s a b :
  at_ i s (a ++ b) ->
  forall lo hi st, lo = Z.of_nat (pos s) -> hi = Z.of_nat (pos s + List.length (utf8s a)) ->
  slice lo hi i st = Ok (utf8s a) st.
Proof.
  intros H lo hi st -> ->. pose proof (at_length _ _ _ H) as HL. destruct H as (Hp & Hs & _).
  rewrite utf8s_app, app_length in HL. unfold slice.
  replace ((0 <=? Z.of_nat (pos s)) && (Z.of_nat (pos s) <=? Z.of_nat (pos s + List.length (utf8s a)))
           && (Z.of_nat (pos s + List.length (utf8s a)) <=? Z.of_nat (List.length i))) with true by lia.
  rewrite Nat2Z.id, Hs, utf8s_app.
  replace (Z.to_nat (Z.of_nat (pos s + List.length (utf8s a)) - Z.of_nat (pos s))) with (List.length (utf8s a)) by lia.
  rewrite firstn_app, Nat.sub_diag, firstn_all. cbn. rewrite app_nil_r. reflexivity.
Qed.

(** ASCII clean code points are one byte. *)
Lemma utf8s_ascii c : (0 <= c < 128)%Z -> List.length (utf8 c) = 1%nat.
Proof. intros H. rewrite utf8_1 by exact H. reflexivity. Qed.

Ltac rd H := rewrite (readr_cons _ _ _ _ H); cbn beta iota.
Ltac rdn H := rewrite (readr_nil _ _ H); cbn beta iota.
Ltac zdec a b := destruct (Z.eqb_spec a b).

(** ** Skipping ignored text. *)
Definition setp (s : lst) (ln lp : nat) : lst := mkL (pos s) lp ln.

Lemma at_setp i s ln lp cs : at_ i s cs -> at_ i (setp s ln lp) cs.
Proof. exact (fun H => H). Qed.

(** [rns_rel]: what the significant-character loop achieves, phrased with [skip]. *)
Lemma at_pos i s s' cs : at_ i s cs -> pos s' = pos s -> at_ i s' cs.
Proof. intros (H1 & H2 & H3) E. unfold at_. rewrite E. auto. Qed.

(** The loop of readNextSignificant on [cs], in terms of a comment-free skip. *)
Fixpoint skip0 (cs : list Z) (wc : bool) (ln lp : nat) : list Z * nat * nat :=
  match cs with
  | [] => ([], ln, lp)
  | c :: t =>
      if c =? c_cr then skip0 t true (S ln) 0
      else if c =? c_lf then (if wc then skip0 t wc ln (lp + 1) else skip0 t wc (S ln) 0)
      else if ignorable c then skip0 t wc ln (lp + 1)
      else (cs, ln, lp)
  end.

Lemma rns_loop n wc i s cs :
  at_ i s cs -> (List.length cs < n)%nat ->
  let '(r, ln, lp) := skip0 cs wc (line s) (lpos s) in
  exists s1, at_ i s1 r /\ line s1 = ln /\ lpos s1 = lp /\
    match r with
    | [] => readNextSignificant_loop n wc i s = Ok (0%Z, 0) s1
    | c :: t => readNextSignificant_loop n wc i s = Ok (c, List.length (utf8 c)) (adv s1 [c])
                /\ c <> c_cr /\ c <> c_lf /\ ignorable c = false
    end.
Proof.
  revert wc s cs; induction n as [|n IH]; intros wc s cs Hat Hn; [lia|].
  destruct cs as [|c t].
  - cbn [skip0]. exists s. repeat split; try (exact (proj1 Hat)); try apply Hat.
    cbn [readNextSignificant_loop]. unfold bind. rdn Hat. reflexivity.
  - cbn [skip0 readNextSignificant_loop]. unfold bind. rd Hat.
    pose proof (at_cons _ _ _ _ Hat) as Hat'. cbn [List.length] in Hn.
    destruct (c =? c_cr) eqn:Ecr.
    { unfold newline. cbn beta iota.
      specialize (IH true (setp (adv s [c]) (S (line s)) 0) t Hat' ltac:(lia)).
      cbn [line lpos setp] in IH. exact IH. }
    destruct (c =? c_lf) eqn:Elf.
    { destruct wc.
      - unfold ret. specialize (IH true (adv s [c]) t Hat' ltac:(lia)).
        unfold adv in IH at 1 2. cbn [line lpos List.length] in IH. exact IH.
      - unfold newline. specialize (IH false (setp (adv s [c]) (S (line s)) 0) t Hat' ltac:(lia)).
        cbn [line lpos setp] in IH. exact IH. }
    unfold ignorable. destruct ((c =? c_tab) || (c =? c_ws) || (c =? c_com) || (c =? c_bom)) eqn:Eig.
    { specialize (IH wc (adv s [c]) t Hat' ltac:(lia)).
      unfold adv in IH at 1 2. cbn [line lpos List.length] in IH. exact IH. }
    exists s. unfold ret. repeat split; auto; try apply Hat; lia.
Qed.

(** The comment loop. *)
Fixpoint skipc (cs : list Z) (wc : bool) (ln lp : nat) : list Z * nat * nat :=
  match cs with
  | [] => ([], ln, lp)
  | c :: t =>
      if wc then (if c =? c_lf then (t, ln, 0) else (cs, ln, lp))
      else if c =? c_cr then skipc t true (S ln) 0
      else if c =? c_lf then (t, S ln, 0)
      else skipc t false ln (lp + 1)
  end.

Lemma com_loop n wc i s cs :
  at_ i s cs -> (List.length cs < n)%nat ->
  let '(r, ln, lp) := skipc cs wc (line s) (lpos s) in
  exists s1, at_ i s1 r /\ line s1 = ln /\ lpos s1 = lp /\ scanComment_loop n wc i s = Ok tt s1.
Proof.
  revert wc s cs; induction n as [|n IH]; intros wc s cs Hat Hn; [lia|].
  destruct cs as [|c t].
  - cbn [skipc]. exists s. repeat split; try apply Hat.
    cbn [scanComment_loop]. unfold bind. rdn Hat. reflexivity.
  - cbn [skipc scanComment_loop]. unfold bind. rd Hat.
    pose proof (at_cons _ _ _ _ Hat) as Hat'. cbn [List.length] in Hn.
    destruct (at_good _ _ _ _ Hat) as [_ Hnz].
    replace (c =? eof) with false by (unfold eof; lia).
    destruct wc; cbn [andb].
    { destruct (c =? c_lf); cbn [negb].
      - exists (setp (adv s [c]) (line s) 0). repeat split; apply Hat'.
      - exists s. rewrite unread_adv. repeat split; apply Hat. }
    destruct (c =? c_cr).
    { unfold newline. cbn beta iota.
      specialize (IH true (setp (adv s [c]) (S (line s)) 0) t Hat' ltac:(lia)).
      cbn [line lpos setp] in IH. exact IH. }
    destruct (c =? c_lf).
    { exists (setp (adv s [c]) (S (line s)) 0). repeat split; apply Hat'. }
    specialize (IH false (adv s [c]) t Hat' ltac:(lia)).
    unfold adv in IH at 1 2. cbn [line lpos List.length] in IH. exact IH.
Qed.

(** [skip] alternates the two. *)
Lemma skip_skip0 cs wc ln lp :
  skip cs (Norm wc) ln lp =
  let '(r, ln', lp') := skip0 cs wc ln lp in
  match r with
  | c :: t => if c =? 35 then skip t Com ln' (lp' + 1) else (r, ln', lp')
  | [] => (r, ln', lp')
  end.
Proof.
  revert wc ln lp; induction cs as [|c t IH]; intros wc ln lp; [reflexivity|].
  cbn [skip skip0]. destruct (c =? c_cr); [apply IH|].
  destruct (c =? c_lf); [destruct wc; apply IH|].
  destruct (ignorable c); [apply IH|]. destruct (c =? 35); reflexivity.
Qed.

Lemma skip_skipc cs ln lp :
  skip cs Com ln lp = (let '(r, ln', lp') := skipc cs false ln lp in skip r (Norm false) ln' lp')
  /\ skip cs ComCR ln lp = (let '(r, ln', lp') := skipc cs true ln lp in skip r (Norm false) ln' lp').
Proof.
  revert ln lp; induction cs as [|c t IH]; intros ln lp; [split; reflexivity|].
  split.
  - cbn [skip skipc]. destruct (c =? c_cr); [apply IH|]. destruct (c =? c_lf); [reflexivity|]. apply IH.
  - cbn [skipc]. destruct (c =? c_lf) eqn:E; [cbn [skip]; rewrite E; reflexivity|].
    cbn [skip]. rewrite E. reflexivity.
Qed.

Lemma skip0_length cs wc ln lp : let '(r, _, _) := skip0 cs wc ln lp in (List.length r <= List.length cs)%nat.
Proof.
  revert wc ln lp; induction cs as [|c t IH]; intros wc ln lp; cbn [skip0]; [cbn; lia|].
  destruct (c =? c_cr).
  { specialize (IH true (S ln) 0). destruct (skip0 t true (S ln) 0) as [[r a] b]. cbn; lia. }
  destruct (c =? c_lf).
  { destruct wc.
    - specialize (IH true ln (lp+1)). destruct (skip0 t true ln (lp+1)) as [[r a] b]. cbn; lia.
    - specialize (IH false (S ln) 0). destruct (skip0 t false (S ln) 0) as [[r a] b]. cbn; lia. }
  destruct (ignorable c); [|cbn; lia].
  specialize (IH wc ln (lp+1)). destruct (skip0 t wc ln (lp+1)) as [[r a] b]. cbn; lia.
Qed.

Lemma skipc_length cs wc ln lp : let '(r, _, _) := skipc cs wc ln lp in (List.length r <= List.length cs)%nat.
Proof.
  revert wc ln lp; induction cs as [|c t IH]; intros wc ln lp; cbn [skipc]; [cbn; lia|].
  destruct wc; [destruct (c =? c_lf); cbn; lia|].
  destruct (c =? c_cr).
  { specialize (IH true (S ln) 0). destruct (skipc t true (S ln) 0) as [[r a] b]. cbn; lia. }
  destruct (c =? c_lf); [cbn; lia|].
  specialize (IH false ln (lp+1)). destruct (skipc t false ln (lp+1)) as [[r a] b]. cbn; lia.
Qed.

(** ** Tokens. *)
Definition text_utf8 (v : list Z) : Forall scalar v -> text v = utf8s v.
Proof.
  induction 1 as [|c v Hc Hv IH]; [reflexivity|]. cbn [text flat_map utf8s]. rewrite encode_rune_utf8 by exact Hc.
  f_equal. exact IH.
Qed.

Lemma good_scalar v : Forall good v -> Forall scalar v.
Proof. apply Forall_impl. intros c [H _]. exact H. Qed.

Lemma span_spec p cs a b : span p cs = (a, b) -> cs = a ++ b.
Proof.
  revert a b; induction cs as [|c t IH]; cbn; intros a b.
  - intros H; injection H as <- <-. reflexivity.
  - destruct (p c). 
    + destruct (span p t) as [a' b']. intros H; injection H as <- <-. cbn. f_equal. apply IH. reflexivity.
    + intros H; injection H as <- <-. reflexivity.
Qed.

Lemma scanName_loop_ok n i s cs a b :
  at_ i s cs -> span is_name_cont cs = (a, b) -> (List.length cs < n)%nat ->
  scanName_loop n i s = Ok tt (adv s a).
Proof.
  revert s cs a b; induction n as [|n IH]; intros s cs a b Hat Hs Hn; [lia|].
  destruct cs as [|c t]; cbn [span] in Hs.
  - injection Hs as <- <-. cbn [scanName_loop]. unfold bind. rdn Hat. cbn. rewrite adv_nil. reflexivity.
  - cbn [scanName_loop]. unfold bind. rd Hat. destruct (is_name_cont c) eqn:E.
    + destruct (span is_name_cont t) as [a' b'] eqn:Es. injection Hs as <- <-.
      rewrite (IH _ _ _ _ (at_cons _ _ _ _ Hat) Es) by (cbn in Hn; lia). rewrite adv_adv. reflexivity.
    + injection Hs as <- <-. destruct (at_good _ _ _ _ Hat) as [_ Hnz].
      replace (c =? eof) with false by (unfold eof; lia). rewrite unread_adv, adv_nil. reflexivity.
Qed.

Lemma Forall_app_l {A} (P : A -> Prop) a b : Forall P (a ++ b) -> Forall P a.
Proof. intros H. apply Forall_app in H. tauto. Qed.

Lemma scanName_ok i s c t nm r :
  at_ i s (c :: t) -> is_name_start c = true -> span is_name_cont t = (nm, r) ->
  scanName i (adv s [c]) =
    Ok (mkTok KName (text (c :: nm)) (line s) (Z.of_nat (lpos s) + 1)) (adv s (c :: nm)).
Proof.
  intros Hat Hc Hs. unfold scanName, bind, get, with_fuel.
  pose proof (at_cons _ _ _ _ Hat) as Hat'.
  rewrite (scanName_loop_ok _ _ _ _ _ _ Hat' Hs) by (apply at_fuel in Hat'; lia).
  assert (Hcr : (0 <= c < 128)%Z) by (unfold is_name_start, is_upper, is_lower in Hc; lia).
  rewrite adv_adv. cbn [app].
  rewrite (slice_at i s (c :: nm) r).
  - unfold ret, adv. cbn [line lpos List.length].
    rewrite text_utf8. 2:{ apply good_scalar. destruct Hat as (_ & _ & Hg). apply span_spec in Hs. subst t.
      apply (Forall_app_l _ (c :: nm) r). exact Hg. }
    f_equal. f_equal. lia.
  - apply span_spec in Hs. subst t. exact Hat.
  - unfold adv. cbn [pos utf8s flat_map]. rewrite app_nil_r, utf8s_ascii by exact Hcr. lia.
  - unfold adv. cbn [pos]. reflexivity.
Qed.

Lemma scanPunct_ok i s c t :
  at_ i s (c :: t) -> (0 <= c < 128)%Z -> (c =? 46) = false ->
  scanPunctuator c (List.length (utf8 c)) i (adv s [c]) =
    Ok (mkTok KPunct (text [c]) (line s) (Z.of_nat (lpos s) + 1)) (adv s [c]).
Proof.
  intros Hat Hc Hd. unfold scanPunctuator, bind, get. rewrite Hd.
  rewrite (slice_at i s [c] t).
  - unfold ret, adv. cbn [line lpos List.length].
    rewrite text_utf8. 2:{ constructor; [|constructor]. apply (at_good _ _ _ _ Hat). }
    f_equal. f_equal. lia.
  - exact Hat.
  - unfold adv. cbn [pos utf8s flat_map]. rewrite app_nil_r. lia.
  - unfold adv. cbn [pos]. reflexivity.
Qed.

(** Reading one more rune: the rune of [cs], or eof. *)
Definition hd0 (cs : list Z) : Z := hd 0%Z cs.
Definition hdw (cs : list Z) : nat := match cs with [] => 0 | c :: _ => List.length (utf8 c) end.
Definition adv1 (s : lst) (cs : list Z) : lst := match cs with [] => s | c :: _ => adv s [c] end.

Lemma readr_any i s cs : at_ i s cs -> readr i s = Ok (hd0 cs, hdw cs) (adv1 s cs).
Proof. intros H. destruct cs as [|c t]; [apply readr_nil, H|apply (readr_cons _ _ _ _ H)]. Qed.

Lemma at_adv1 i s cs : at_ i s cs -> at_ i (adv1 s cs) (tl cs).
Proof. intros H. destruct cs as [|c t]; [exact H|apply at_cons, H]. Qed.

Lemma scanDots i s t :
  at_ i s (46%Z :: t) ->
  scanPunctuator 46 (List.length (utf8 46)) i (adv s [46%Z]) =
    if match t with x :: y :: _ => (x =? 46) && (y =? 46) | _ => false end
    then Ok (mkTok KPunct (B "...") (line s) (Z.of_nat (lpos s) + 1)) (adv s [46%Z; 46%Z; 46%Z])
    else scanPunctuator 46 (List.length (utf8 46)) i (adv s [46%Z]).
Proof.
  intros Hat. destruct (match t with x :: y :: _ => (x =? 46) && (y =? 46) | _ => false end) eqn:E; [|reflexivity].
  destruct t as [|x [|y t]]; try discriminate. assert (x = 46%Z) by lia. assert (y = 46%Z) by lia. subst x y.
  unfold scanPunctuator, bind, get. change (46 =? 46) with true. cbn beta iota.
  pose proof (at_cons _ _ _ _ Hat) as H1. rd H1. pose proof (at_cons _ _ _ _ H1) as H2. rd H2.
  change (negb (46 =? 46) || negb (46 =? 46)) with false. cbn beta iota. unfold ret. rewrite !adv_adv. cbn [app]. unfold adv. cbn [line lpos List.length].
  f_equal. f_equal. lia.
Qed.

Lemma scanDots_ill i s t :
  at_ i s (46%Z :: t) -> match t with x :: y :: _ => (x =? 46) && (y =? 46) | _ => false end = false ->
  exists msg s', scanPunctuator 46 (List.length (utf8 46)) i (adv s [46%Z])
    = Ok (illegal msg (line s) (Z.of_nat (lpos s) + 1)) s'.
Proof.
  intros Hat E. unfold scanPunctuator, bind, get. change (46 =? 46) with true. cbn beta iota.
  pose proof (at_cons _ _ _ _ Hat) as H1. rewrite (readr_any _ _ _ H1). cbn beta iota.
  pose proof (at_adv1 _ _ _ H1) as H2. rewrite (readr_any _ _ _ H2). cbn beta iota.
  replace (negb (hd0 t =? 46) || negb (hd0 (tl t) =? 46)) with true.
  - unfold ret. unfold adv. cbn [line lpos List.length]. eexists _, _. f_equal. unfold illegal. f_equal. lia.
  - destruct t as [|x [|y t]]; cbn in *; try reflexivity; try lia.
Qed.

(** Numbers. After [readDigits] etc. one more rune has been read: the state is [adv1 (adv s lex) rest]. *)
Lemma readDigits_loop_ok n i s cs a b :
  at_ i s cs -> span is_digit cs = (a, b) -> (List.length cs < n)%nat ->
  readDigits_loop n i s = Ok (hd0 b, hdw b) (adv1 (adv s a) b).
Proof.
  revert s cs a b; induction n as [|n IH]; intros s cs a b Hat Hs Hn; [lia|].
  cbn [readDigits_loop]. unfold bind. rewrite (readr_any _ _ _ Hat). cbn beta iota.
  destruct cs as [|c t]; cbn [span] in Hs.
  - injection Hs as <- <-. cbn. rewrite adv_nil. reflexivity.
  - cbn [hd0 hd hdw adv1]. destruct (is_digit c) eqn:E.
    + destruct (span is_digit t) as [a' b'] eqn:Es. injection Hs as <- <-.
      rewrite (IH _ _ _ _ (at_cons _ _ _ _ Hat) Es) by (cbn in Hn; lia). rewrite adv_adv. reflexivity.
    + injection Hs as <- <-. rewrite adv_nil. reflexivity.
Qed.

(** [readDigits] is called with the first rune of [cs] already read. *)
Lemma readDigits_ok i s cs :
  at_ i s cs ->
  match cdigits cs with
  | Some (d, r) => readDigits (hd0 cs) i (adv1 s cs) = Ok (inr (hd0 r, hdw r)) (adv1 (adv s d) r) /\ cs = d ++ r
  | None => exists msg s', readDigits (hd0 cs) i (adv1 s cs) = Ok (inl msg) s'
  end.
Proof.
  intros Hat. unfold cdigits, readDigits. destruct cs as [|c t]; cbn [span].
  - eexists _, _. reflexivity.
  - destruct (is_digit c) eqn:E.
    + destruct (span is_digit t) as [a b] eqn:Es. cbn [hd0 hd adv1]. rewrite E. cbn [negb].
      unfold bind, with_fuel. pose proof (at_cons _ _ _ _ Hat) as Hat'.
      rewrite (readDigits_loop_ok _ _ _ _ _ _ Hat' Es) by (apply at_fuel in Hat'; lia).
      rewrite adv_adv. split; [reflexivity|]. cbn. f_equal. eapply span_spec; exact Es.
    + cbn [hd0 hd]. rewrite E. eexists _, _. reflexivity.
Qed.

Lemma at_app i s cs a b : at_ i s cs -> cs = a ++ b -> at_ i (adv s a) b.
Proof. intros H ->. apply at_adv, H. Qed.

Lemma num_intpart_ok i s cs sg cs1 :
  at_ i s cs -> c_sign cs = (sg, cs1) ->
  match c_intpart cs1 with
  | Some (ip, r) => num_intpart (hd0 cs) i (adv1 s cs) = Ok (inr (hd0 r, hdw r)) (adv1 (adv s (sg ++ ip)) r)
                    /\ cs = sg ++ ip ++ r
  | None => exists msg s', num_intpart (hd0 cs) i (adv1 s cs) = Ok (inl msg) s'
  end.
Proof.
  intros Hat Hsg.
  assert (G : cs = sg ++ cs1 /\
    (if hd0 cs =? 45 then '(r, _) <- readr ;; ret r else ret (hd0 cs)) i (adv1 s cs) = Ok (hd0 cs1) (adv1 (adv s sg) cs1)).
  { unfold c_sign in Hsg. destruct cs as [|c t].
    - injection Hsg as <- <-. split; [reflexivity|]. cbn. rewrite adv_nil. reflexivity.
    - cbn [hd0 hd adv1]. destruct (c =? 45).
      + injection Hsg as <- <-. split; [reflexivity|].
        unfold bind. rewrite (readr_any _ _ _ (at_cons _ _ _ _ Hat)). reflexivity.
      + injection Hsg as <- <-. split; [reflexivity|]. rewrite adv_nil. reflexivity. }
  destruct G as [Ecs G].
  assert (G2 : num_intpart (hd0 cs) i (adv1 s cs) =
    (if hd0 cs1 =? 48 then
      '(r, w) <- readr ;;
      if is_digit r then ret (inl (B "invalid number, unexpected digit after 0: " ++ quote_rune r))
      else ret (inr (r, w))
     else readDigits (hd0 cs1)) i (adv1 (adv s sg) cs1)).
  { unfold num_intpart. unfold bind at 1. rewrite G. reflexivity. }
  rewrite G2. clear G G2.
  pose proof (at_app _ _ _ _ _ Hat Ecs) as Hat1. set (s1 := adv s sg) in *.
  unfold c_intpart. destruct cs1 as [|c t].
  - cbn [hd0 hd]. change (0 =? 48) with false. cbn beta iota.
    pose proof (readDigits_ok _ _ _ Hat1) as H. cbn in H. exact H.
  - cbn [hd0 hd]. destruct (c =? 48) eqn:E48.
    + unfold bind. cbn [adv1]. rewrite (readr_any _ _ _ (at_cons _ _ _ _ Hat1)). cbn beta iota.
      destruct t as [|d t].
      * cbn [hd0 hd]. change (is_digit 0) with false. cbn beta iota. unfold ret.
        split; [|rewrite Ecs; reflexivity]. unfold s1. cbn [hdw adv1]. rewrite adv_adv. reflexivity.
      * cbn [hd0 hd]. destruct (is_digit d); [eexists _, _; reflexivity|].
        split; [|rewrite Ecs; reflexivity]. unfold ret, s1. cbn [hd0 hd hdw adv1]. rewrite !adv_adv.
        rewrite <- app_assoc. reflexivity.
    + pose proof (readDigits_ok _ _ _ Hat1) as H. destruct (cdigits (c :: t)) as [[d r]|]; [|exact H].
      destruct H as [H1 H2]. cbn [hd0 hd] in H1. rewrite H1. split; [|rewrite Ecs, H2; reflexivity].
      unfold s1. rewrite adv_adv. reflexivity.
Qed.

Lemma num_fracpart_ok i s cs :
  at_ i s cs ->
  match c_fracpart cs with
  | Some (fp, fl, r) => num_fracpart (hd0 cs, hdw cs) i (adv1 s cs) = Ok (inr ((hd0 r, hdw r), fl)) (adv1 (adv s fp) r)
                    /\ cs = fp ++ r
  | None => exists msg s', num_fracpart (hd0 cs, hdw cs) i (adv1 s cs) = Ok (inl msg) s'
  end.
Proof.
  intros Hat. unfold num_fracpart, c_fracpart. destruct cs as [|c t].
  - cbn. rewrite adv_nil. split; reflexivity.
  - cbn [hd0 hd hdw]. destruct (c =? 46).
    + unfold bind. cbn [adv1]. pose proof (at_cons _ _ _ _ Hat) as Hat1.
      rewrite (readr_any _ _ _ Hat1). cbn beta iota.
      pose proof (readDigits_ok _ _ _ Hat1) as H. destruct (cdigits t) as [[d r]|].
      * destruct H as [H1 H2]. rewrite H1. cbn. rewrite adv_adv, H2. split; reflexivity.
      * destruct H as (msg & s' & H). rewrite H. eexists _, _. reflexivity.
    + unfold ret. cbn [adv1 hd0 hd hdw]. rewrite adv_nil. split; reflexivity.
Qed.

Lemma num_exppart_ok i s cs fl0 :
  at_ i s cs ->
  match c_exppart cs with
  | Some (ep, fl, r) => num_exppart (hd0 cs, hdw cs) fl0 i (adv1 s cs)
                          = Ok (inr ((hd0 r, hdw r), fl0 || fl)) (adv1 (adv s ep) r)
                    /\ cs = ep ++ r
  | None => exists msg s', num_exppart (hd0 cs, hdw cs) fl0 i (adv1 s cs) = Ok (inl msg) s'
  end.
Proof.
  intros Hat. unfold num_exppart, c_exppart. destruct cs as [|c t].
  - cbn. rewrite adv_nil, orb_false_r. split; reflexivity.
  - cbn [hd0 hd hdw]. destruct ((c =? 101) || (c =? 69)).
    + cbn [adv1]. pose proof (at_cons _ _ _ _ Hat) as Hat1.
      destruct (c_expsign t) as [sg t'] eqn:Es.
      assert (G : t = sg ++ t' /\
        (if (hd0 t =? 43) || (hd0 t =? 45)
         then '(r, _) <- readr ;; ret r else ret (hd0 t)) i (adv1 (adv s [c]) t) = Ok (hd0 t') (adv1 (adv (adv s [c]) sg) t')).
      { unfold c_expsign in Es. destruct t as [|x t].
        - injection Es as <- <-. split; [reflexivity|]. cbn. rewrite adv_nil. reflexivity.
        - cbn [hd0 hd adv1]. destruct ((x =? 43) || (x =? 45)).
          + injection Es as <- <-. split; [reflexivity|]. unfold bind.
            rewrite (readr_any _ _ _ (at_cons _ _ _ _ Hat1)). reflexivity.
          + injection Es as <- <-. split; [reflexivity|]. rewrite adv_nil. reflexivity. }
      destruct G as [Et G].
      match goal with
      | |- match match _ with Some _ => _ | None => _ end with Some _ => _ | None => exists _ _, ?e0 = _ end =>
          assert (G2 : e0 = (x <- readDigits (hd0 t') ;;
            match x with inl e => ret (inl e) | inr rw => ret (inr (rw, true)) end) i (adv1 (adv (adv s [c]) sg) t'))
      end.
      { unfold bind at 1. rewrite (readr_any _ _ _ Hat1). cbn beta iota. unfold bind at 1. rewrite G. reflexivity. }
      rewrite G2. clear G G2. unfold bind.
      pose proof (at_app _ _ _ _ _ Hat1 Et) as Hat2.
      pose proof (readDigits_ok _ _ _ Hat2) as H. destruct (cdigits t') as [[d r]|].
      * destruct H as [H1 H2]. rewrite H1. cbn beta iota. unfold ret. rewrite orb_true_r.
        rewrite !adv_adv. split; [reflexivity|]. rewrite Et, H2. cbn. rewrite <- app_assoc. reflexivity.
      * destruct H as (msg & s' & H). rewrite H. eexists _, _. reflexivity.
    + unfold ret. cbn [adv1 hd0 hd hdw]. rewrite adv_nil, orb_false_r. split; reflexivity.
Qed.

Lemma unread_adv1 i s cs : Forall good cs ->
  (if hd0 cs =? eof then ret tt else unread (hdw cs)) i (adv1 s cs) = Ok tt s.
Proof.
  destruct cs as [|c t]; intros Hg; [reflexivity|]. cbn [hd0 hd hdw adv1].
  inversion Hg as [|? ? [_ Hnz] _]; subst. replace (c =? eof) with false by (unfold eof; lia). apply unread_adv.
Qed.

Lemma scanNumber_ok i s c t :
  at_ i s (c :: t) -> (0 <= c < 128)%Z ->
  match cnum (c :: t) with
  | Some (lex, fl, r) =>
      scanNumber c i (adv s [c]) =
        Ok (mkTok (if fl then KFloat else KInt) (text lex) (line s) (Z.of_nat (lpos s) + 1)) (adv s lex)
      /\ c :: t = lex ++ r
  | None => exists msg s', scanNumber c i (adv s [c]) = Ok (illegal msg (line s) (Z.of_nat (lpos s) + 1)) s'
  end.
Proof.
  intros Hat Hc. unfold cnum.
  destruct (c_sign (c :: t)) as [sg cs1] eqn:Esg.
  pose proof (num_intpart_ok _ _ _ _ _ Hat Esg) as H1. cbn [hd0 hd adv1] in H1.
  assert (Hcol : Z.of_nat (lpos (adv s [c])) = (Z.of_nat (lpos s) + 1)%Z) by (unfold adv; cbn; lia).
  assert (Hln : line (adv s [c]) = line s) by reflexivity.
  assert (Hps : (Z.of_nat (pos (adv s [c])) - 1)%Z = Z.of_nat (pos s)).
  { unfold adv. cbn [pos utf8s flat_map]. rewrite app_nil_r, utf8s_ascii by exact Hc. lia. }
  destruct (c_intpart cs1) as [[ip cs2]|].
  2:{ destruct H1 as (msg & s' & H1). unfold scanNumber, bind, get. rewrite H1. unfold ret.
      rewrite Hcol, Hln. eexists _, _. reflexivity. }
  destruct H1 as [H1 E1].
  pose proof (at_app _ _ _ (sg ++ ip) cs2 Hat ltac:(rewrite <- app_assoc; exact E1)) as Hat2.
  pose proof (num_fracpart_ok _ _ _ Hat2) as H2.
  destruct (c_fracpart cs2) as [[[fp f1] cs3]|].
  2:{ destruct H2 as (msg & s' & H2). unfold scanNumber, bind, get. rewrite H1, H2. unfold ret.
      rewrite Hcol, Hln. eexists _, _. reflexivity. }
  destruct H2 as [H2 E2].
  pose proof (at_app _ _ _ _ _ Hat2 E2) as Hat3.
  pose proof (num_exppart_ok _ _ _ f1 Hat3) as H3.
  destruct (c_exppart cs3) as [[[ep f2] cs4]|].
  2:{ destruct H3 as (msg & s' & H3). unfold scanNumber, bind, get. rewrite H1, H2, H3. unfold ret.
      rewrite Hcol, Hln. eexists _, _. reflexivity. }
  destruct H3 as [H3 E3].
  assert (Ecs : c :: t = (sg ++ ip ++ fp ++ ep) ++ cs4) by (rewrite E1, E2, E3, <- !app_assoc; reflexivity).
  split; [|exact Ecs].
  unfold scanNumber. unfold bind at 1, get at 1. unfold bind at 1. rewrite H1. unfold bind at 1. rewrite H2.
  unfold bind at 1. rewrite H3. unfold bind at 1.
  rewrite unread_adv1. 2:{ destruct Hat3 as (_ & _ & Hg). rewrite E3 in Hg. apply Forall_app in Hg. tauto. }
  unfold bind, get. rewrite !adv_adv. rewrite <- !app_assoc.
  rewrite (slice_at i s (sg ++ ip ++ fp ++ ep) cs4).
  - unfold ret. rewrite Hcol. rewrite text_utf8.
    + reflexivity.
    + apply good_scalar. destruct Hat as (_ & _ & Hg). rewrite Ecs in Hg. apply Forall_app in Hg. tauto.
  - rewrite <- Ecs. exact Hat.
  - exact Hps.
  - reflexivity.
Qed.

(** Strings. *)
Lemma cstr_suffix cs v r : cstr cs = Some (v, r) -> exists raw, cs = raw ++ r.
Proof.
  assert (H : forall n cs v r, (List.length cs <= n)%nat -> cstr cs = Some (v, r) -> exists raw, cs = raw ++ r).
  2:{ apply (H (List.length cs)). lia. }
  induction n as [|n IH]; intros [|c t] v0 r0 Hn Hc; try discriminate; [cbn in Hn; lia|].
  cbn [cstr] in Hc. cbn in Hn.
  destruct (c =? 34). { injection Hc as <- <-. exists [c]. reflexivity. }
  destruct ((c <? 32) && negb (c =? c_tab)); [discriminate|].
  assert (P : forall w t1 pre, t = pre ++ t1 -> push w (cstr t1) = Some (v0, r0) -> exists raw, c :: t = raw ++ r0).
  { intros w t1 pre Et Hp. unfold push in Hp. destruct (cstr t1) as [[v' r']|] eqn:E1; [|discriminate].
    injection Hp as <- <-. destruct (IH t1 v' r') as [raw Hr]; [subst t; rewrite app_length in Hn; lia|exact E1|].
    exists (c :: pre ++ raw). rewrite Et, Hr. cbn. rewrite <- app_assoc. reflexivity. }
  destruct (c =? c_bsl).
  - destruct t as [|e t1]; [discriminate|]. destruct (e =? 117).
    + destruct t1 as [|h1 [|h2 [|h3 [|h4 t2]]]]; try discriminate. cbv zeta in Hc.
      destruct (_ <? 0); [discriminate|]. apply (P _ t2 [e; h1; h2; h3; h4] eq_refl Hc).
    + destruct (c_escape e); [|discriminate]. apply (P _ t1 [e] eq_refl Hc).
  - apply (P _ t [] eq_refl Hc).
Qed.

(** Does a string body contain an escape? (the [hasEscape] flag) *)
Lemma pass1_ok n b i s cs v r :
  at_ i s cs -> cstr cs = Some (v, r) -> (List.length cs < n)%nat ->
  exists b' raw, scanString_pass1 n b i s = Ok (inr b') (adv s raw) /\ cs = raw ++ r /\
    (b' = false -> b = false /\ raw = v ++ [34%Z]).
Proof.
  revert b s cs v; induction n as [|n IH]; intros b s cs v Hat Hc Hn; [lia|].
  destruct cs as [|c t]; [discriminate|]. cbn [cstr] in Hc. cbn in Hn.
  cbn [scanString_pass1]. unfold bind at 1. rd Hat. pose proof (at_cons _ _ _ _ Hat) as Hat1.
  destruct (Z.eqb_spec c 34) as [->|].
  { injection Hc as <- <-. exists b, [34%Z]. unfold ret. repeat split; auto. }
  destruct ((c <? 32) && negb (c =? c_tab)); [discriminate|].
  assert (P : forall b1 w t1 pre, t = pre ++ t1 -> push w (cstr t1) = Some (v, r) ->
     (b1 = false -> b = false /\ w = [c] /\ pre = []) ->
     exists b' raw, scanString_pass1 n b1 i (adv (adv s [c]) pre) = Ok (inr b') (adv s raw) /\ c :: t = raw ++ r /\
       (b' = false -> b = false /\ raw = v ++ [34%Z])).
  { intros b1 w t1 pre Et Hp Hb. unfold push in Hp. destruct (cstr t1) as [[v' r']|] eqn:E1; [|discriminate].
    injection Hp as <- <-.
    destruct (IH b1 (adv (adv s [c]) pre) t1 v') as (b' & raw & H1 & H2 & H3).
    - apply (at_app _ _ _ _ _ Hat1 Et). - exact E1. - subst t; rewrite app_length in Hn; lia.
    - exists b', (c :: pre ++ raw). rewrite H1, !adv_adv. rewrite Et, H2. cbn. rewrite <- !app_assoc.
      repeat split; try reflexivity; destruct (H3 H) as [Hb1 Hr]; destruct (Hb Hb1) as (Hb0 & -> & ->); auto.
      rewrite Hr. reflexivity. }
  destruct (c =? c_bsl).
  - destruct t as [|e t1]; [discriminate|]. unfold bind at 1. rd Hat1.
    destruct (e =? 117).
    + destruct t1 as [|h1 [|h2 [|h3 [|h4 t2]]]]; try discriminate. cbv zeta in Hc.
      destruct (_ <? 0); [discriminate|].
      pose proof (at_cons _ _ _ _ Hat1) as Ha. unfold bind at 1. rd Ha.
      pose proof (at_cons _ _ _ _ Ha) as Hb. unfold bind at 1. rd Hb.
      pose proof (at_cons _ _ _ _ Hb) as Hd. unfold bind at 1. rd Hd.
      pose proof (at_cons _ _ _ _ Hd) as He. unfold bind at 1. rd He.
      destruct (P true _ t2 [e; h1; h2; h3; h4] eq_refl Hc ltac:(discriminate)) as (b' & raw & H1 & H2 & H3).
      exists b', raw. rewrite !adv_adv in *. cbn [app] in *. auto.
    + destruct (c_escape e); [|discriminate].
      destruct (P true _ t1 [e] eq_refl Hc ltac:(discriminate)) as (b' & raw & H1 & H2 & H3).
      exists b', raw. auto.
  - destruct (P b _ t [] eq_refl Hc ltac:(auto)) as (b' & raw & H1 & H2 & H3).
    exists b', raw. rewrite adv_nil in H1. auto.
Qed.

Lemma escapedChar_ok i s e t r : at_ i s (e :: t) -> c_escape e = Some r ->
  escapedChar i s = Ok (inr r) (adv s [e]).
Proof.
  intros Hat He. unfold escapedChar, bind. rd Hat. unfold c_escape in He.
  repeat match goal with
  | H : (if ?c then _ else _) = Some _ |- _ => destruct c; [injection H as <-; reflexivity|]
  end. discriminate.
Qed.

Lemma escapedChar_u i s h1 h2 h3 h4 t : at_ i s (117%Z :: h1 :: h2 :: h3 :: h4 :: t) ->
  exists msg, escapedChar i s =
    Ok (if unicodeCodePointToRune h1 h2 h3 h4 <? 0 then inl msg else inr (unicodeCodePointToRune h1 h2 h3 h4))
      (adv s [117%Z; h1; h2; h3; h4]).
Proof.
  intros Hat. unfold escapedChar. unfold bind at 1. rd Hat. cbn [Z.eqb Pos.eqb].
  pose proof (at_cons _ _ _ _ Hat) as Ha. unfold bind at 1. rd Ha.
  pose proof (at_cons _ _ _ _ Ha) as Hb. unfold bind at 1. rd Hb.
  pose proof (at_cons _ _ _ _ Hb) as Hd. unfold bind at 1. rd Hd.
  pose proof (at_cons _ _ _ _ Hd) as He. unfold bind at 1. rd He.
  rewrite !adv_adv. cbn [app]. cbv zeta.
  eexists. destruct (_ <? 0); reflexivity.
Qed.

Lemma pass2_ok n i s cs v r bs :
  at_ i s cs -> cstr cs = Some (v, r) -> (List.length cs < n)%nat ->
  exists raw, scanString_pass2 n bs i s = Ok (inr (bs ++ text v)) (adv s raw) /\ cs = raw ++ r.
Proof.
  revert bs s cs v; induction n as [|n IH]; intros bs s cs v Hat Hc Hn; [lia|].
  destruct cs as [|c t]; [discriminate|]. cbn [cstr] in Hc. cbn in Hn.
  cbn [scanString_pass2]. unfold bind at 1. rd Hat. pose proof (at_cons _ _ _ _ Hat) as Hat1.
  destruct (at_good _ _ _ _ Hat) as [_ Hnz]. replace (c =? eof) with false by (unfold eof; lia).
  rewrite orb_false_r.
  destruct (Z.eqb_spec c 34) as [->|].
  { injection Hc as <- <-. exists [34%Z]. cbn. rewrite app_nil_r. split; reflexivity. }
  destruct ((c <? 32) && negb (c =? c_tab)); [discriminate|].
  assert (P : forall w t1 pre, t = pre ++ t1 -> push w (cstr t1) = Some (v, r) ->
     exists raw, scanString_pass2 n (bs ++ text w) i (adv (adv s [c]) pre) = Ok (inr (bs ++ text v)) (adv s raw)
       /\ c :: t = raw ++ r).
  { intros w t1 pre Et Hp. unfold push in Hp. destruct (cstr t1) as [[v' r']|] eqn:E1; [|discriminate].
    injection Hp as <- <-.
    destruct (IH (bs ++ text w) (adv (adv s [c]) pre) t1 v') as (raw & H1 & H2).
    - apply (at_app _ _ _ _ _ Hat1 Et). - exact E1. - subst t; rewrite app_length in Hn; lia.
    - exists (c :: pre ++ raw). rewrite H1, !adv_adv. rewrite Et, H2. cbn. rewrite <- !app_assoc.
      split; [|reflexivity]. unfold text. rewrite flat_map_app. reflexivity. }
  destruct (c =? c_bsl).
  - destruct t as [|e t1]; [discriminate|]. unfold bind at 1.
    destruct (Z.eqb_spec e 117) as [->|].
    + destruct t1 as [|h1 [|h2 [|h3 [|h4 t2]]]]; try discriminate. cbv zeta in Hc.
      destruct (escapedChar_u _ _ _ _ _ _ _ Hat1) as [msg Hm]. rewrite Hm.
      destruct (_ <? 0); [discriminate|].
      destruct (P _ t2 [117%Z; h1; h2; h3; h4] eq_refl Hc) as (raw & H1 & H2). exists raw.
      cbn [text flat_map] in H1. rewrite app_nil_r in H1. auto.
    + destruct (c_escape e) as [x|] eqn:Ee; [|discriminate].
      rewrite (escapedChar_ok _ _ _ _ _ Hat1 Ee).
      destruct (P _ t1 [e] eq_refl Hc) as (raw & H1 & H2). exists raw.
      cbn [text flat_map] in H1. rewrite app_nil_r in H1. auto.
  - destruct (P _ t [] eq_refl Hc) as (raw & H1 & H2). exists raw.
    cbn [text flat_map] in H1. rewrite app_nil_r, adv_nil in H1. auto.
Qed.

Lemma scanString_ok i s cs v r :
  at_ i s cs -> cstr cs = Some (v, r) ->
  exists raw, scanString i s = Ok (mkTok KString (text v) (line s) (Z.of_nat (lpos s))) (adv s raw) /\ cs = raw ++ r.
Proof.
  intros Hat Hc. unfold scanString. unfold bind at 1, get at 1. cbv zeta. unfold bind at 1, with_fuel at 1.
  pose proof (at_fuel _ _ _ Hat) as Hf.
  destruct (pass1_ok (fuel_of i) false i s cs v r Hat Hc ltac:(lia)) as (b & raw & H1 & H2 & H3). rewrite H1.
  destruct b.
  - unfold bind, put, with_fuel.
    destruct (pass2_ok (fuel_of i) i s cs v r [] Hat Hc ltac:(lia)) as (raw' & H4 & H5).
    rewrite H4. exists raw'. split; [reflexivity|exact H5].
  - destruct (H3 eq_refl) as [_ Hraw]. exists raw. split; [|exact H2]. unfold bind, get.
    assert (Hv : Forall good v).
    { destruct Hat as (_ & _ & Hg). rewrite H2, Hraw in Hg. apply Forall_app in Hg as [Hg _].
      apply Forall_app in Hg. tauto. }
    rewrite (slice_at i s v (34%Z :: r)).
    + unfold ret. rewrite text_utf8 by (apply good_scalar; exact Hv). reflexivity.
    + rewrite H2, Hraw in Hat. rewrite <- app_assoc in Hat. exact Hat.
    + reflexivity.
    + subst raw. unfold adv. cbn [pos]. rewrite utf8s_app, app_length.
      change (List.length (utf8s [34%Z])) with 1%nat. lia.
Qed.

(** When the code-point lexer rejects, so does the byte lexer. *)
Definition ill_or {A C} (o : outcome (A + C)) (Q : C -> Prop) : Prop :=
  (exists r s', o = Ok (inl r) s') \/ (exists c s1, o = Ok (inr c) s1 /\ Q c).

Lemma ill_or_imp {A C} (o : outcome (A + C)) (Q R : C -> Prop) :
  (forall c, Q c -> R c) -> ill_or o Q -> ill_or o R.
Proof. intros H [A'|(c & s1 & A' & A'')]; [left; exact A'|right; exists c, s1; auto]. Qed.

Lemma pass1_total n b i s cs :
  at_ i s cs -> (List.length cs < n)%nat ->
  ill_or (scanString_pass1 n b i s) (fun b2 => b = true -> b2 = true).
Proof.
  revert b s cs; induction n as [|n IH]; intros b1 s1 cs Hat Hn; [lia|]. cbn [scanString_pass1]. unfold bind at 1.
  rewrite (readr_any _ _ _ Hat). cbn beta iota.
  destruct (hd0 cs =? 34). { right. eexists _, _. split; [reflexivity|auto]. }
  destruct ((hd0 cs <? 32) && negb (hd0 cs =? c_tab)) eqn:E. { left. eexists _, _. reflexivity. }
  destruct cs as [|c t]; [cbn in E; lia|]. cbn [hd0 hd adv1] in *. cbn in Hn.
  pose proof (at_cons _ _ _ _ Hat) as Hat1.
  destruct (c =? c_bsl).
  - unfold bind at 1. rewrite (readr_any _ _ _ Hat1). cbn beta iota.
    pose proof (at_adv1 _ _ _ Hat1) as H2.
    assert (L : forall l : list Z, (List.length (tl l) <= List.length l)%nat) by (intros [|? ?]; cbn; lia).
    pose proof (L t).
    destruct (hd0 t =? 117).
    + unfold bind at 1. rewrite (readr_any _ _ _ H2). cbn beta iota. pose proof (at_adv1 _ _ _ H2) as H3.
      unfold bind at 1. rewrite (readr_any _ _ _ H3). cbn beta iota. pose proof (at_adv1 _ _ _ H3) as H4.
      unfold bind at 1. rewrite (readr_any _ _ _ H4). cbn beta iota. pose proof (at_adv1 _ _ _ H4) as H5.
      unfold bind at 1. rewrite (readr_any _ _ _ H5). cbn beta iota. pose proof (at_adv1 _ _ _ H5) as H6.
      pose proof (L (tl (tl (tl (tl t))))). pose proof (L (tl (tl (tl t)))). pose proof (L (tl (tl t))). pose proof (L (tl t)).
      eapply ill_or_imp; [|apply (IH true _ _ H6); lia]. cbn. auto.
    + eapply ill_or_imp; [|apply (IH true _ _ H2); lia]. cbn. auto.
  - apply (IH b1 _ _ Hat1). lia.
Qed.

Lemma pass1_bad n b i s cs :
  at_ i s cs -> cstr cs = None -> (List.length cs < n)%nat ->
  ill_or (scanString_pass1 n b i s) (fun b2 => b2 = true /\
     forall m bs, (List.length cs < m)%nat -> exists msg s2, scanString_pass2 m bs i s = Ok (inl msg) s2).
Proof.
  revert b s cs; induction n as [|n IH]; intros b s cs Hat Hc Hn; [lia|].
  destruct cs as [|c t].
  { left. cbn [scanString_pass1]. unfold bind. rdn Hat. eexists _, _. reflexivity. }
  cbn [cstr] in Hc. cbn in Hn. pose proof (at_cons _ _ _ _ Hat) as Hat1.
  cbn [scanString_pass1]. unfold bind at 1. rd Hat.
  destruct (at_good _ _ _ _ Hat) as [_ Hnz].
  destruct (Z.eqb_spec c 34) as [->|Hne]; [discriminate|].
  destruct ((c <? 32) && negb (c =? c_tab)) eqn:Ectl. { left. eexists _, _. reflexivity. }
  (* recursion with a valid prefix [pre] *)
  assert (P : forall b1 w t1 pre, t = pre ++ t1 -> push w (cstr t1) = None ->
     (forall m bs, exists bs', scanString_pass2 (S m) bs i s = scanString_pass2 m bs' i (adv (adv s [c]) pre)) ->
     ill_or (scanString_pass1 n b1 i (adv (adv s [c]) pre)) (fun b2 => b2 = true /\
       forall m bs, (List.length (c :: t) < m)%nat -> exists msg s2, scanString_pass2 m bs i s = Ok (inl msg) s2)).
  { intros b1 w t1 pre Et Hp Hstep.
    assert (E1 : cstr t1 = None) by (unfold push in Hp; destruct (cstr t1) as [[? ?]|]; [discriminate|reflexivity]).
    assert (HL : (List.length t1 <= List.length t)%nat) by (rewrite Et, app_length; lia).
    eapply ill_or_imp; [|apply (IH b1 (adv (adv s [c]) pre) t1)].
    - cbn beta. intros b2 [-> HC]. split; [reflexivity|]. intros [|m] bs Hm; [lia|]. cbn in Hm.
      destruct (Hstep m bs) as [bs' ->]. apply HC. lia.
    - apply (at_app _ _ _ _ _ Hat1 Et).
    - exact E1.
    - lia. }
  destruct (c =? c_bsl) eqn:Ebsl.
  - destruct t as [|e t1].
    { (* backslash at the end of the input *)
      unfold bind at 1. rdn Hat1. cbn [Z.eqb]. left.
      destruct n as [|n]; [cbn in Hn; lia|]. cbn [scanString_pass1]. unfold bind. rdn Hat1. eexists _, _. reflexivity. }
    unfold bind at 1. rd Hat1.
    assert (Bad : forall s1, at_ i (adv (adv s [c]) [e]) t1 ->
       (forall bs, exists msg s2, forall m, scanString_pass2 (S m) bs i s = Ok (inl msg) s2) ->
       (exists k, at_ i s1 (skipn k t1)) ->
       ill_or (scanString_pass1 n true i s1) (fun b2 => b2 = true /\
         forall m bs, (List.length (c :: e :: t1) < m)%nat -> exists msg s3, scanString_pass2 m bs i s = Ok (inl msg) s3)).
    { intros s1 Hat2 Hp2 [k Hk].
      assert (Hle : (List.length (skipn k t1) <= List.length t1)%nat) by (rewrite skipn_length; lia).
      eapply ill_or_imp; [|apply (pass1_total n true i s1 _ Hk); cbn in Hn; lia].
      cbn beta. intros b2 Hb2. split; [auto|]. intros [|m] bs Hm; [lia|].
      destruct (Hp2 bs) as (msg & s3 & H). exists msg, s3. apply H. }
    pose proof (at_cons _ _ _ _ Hat1) as Hat2.
    destruct (Z.eqb_spec e 117) as [->|Hne117].
    + unfold bind at 1. rewrite (readr_any _ _ _ Hat2). cbn beta iota. pose proof (at_adv1 _ _ _ Hat2) as H3.
      unfold bind at 1. rewrite (readr_any _ _ _ H3). cbn beta iota. pose proof (at_adv1 _ _ _ H3) as H4.
      unfold bind at 1. rewrite (readr_any _ _ _ H4). cbn beta iota. pose proof (at_adv1 _ _ _ H4) as H5.
      unfold bind at 1. rewrite (readr_any _ _ _ H5). cbn beta iota. pose proof (at_adv1 _ _ _ H5) as H6.
      assert (Hsk : tl (tl (tl (tl t1))) = skipn 4 t1).
      { destruct t1 as [|a [|b0 [|d [|e t2]]]]; reflexivity. }
      assert (Hesc : exists msg, forall st, st = adv s [c] ->
         escapedChar i st = Ok (if unicodeCodePointToRune (hd0 t1) (hd0 (tl t1)) (hd0 (tl (tl t1))) (hd0 (tl (tl (tl t1)))) <? 0
            then inl msg else inr (unicodeCodePointToRune (hd0 t1) (hd0 (tl t1)) (hd0 (tl (tl t1))) (hd0 (tl (tl (tl t1))))))
          (adv1 (adv1 (adv1 (adv1 (adv (adv s [c]) [117%Z]) t1) (tl t1)) (tl (tl t1))) (tl (tl (tl t1))))).
      { eexists. intros st ->. unfold escapedChar. unfold bind at 1. rd Hat1. cbn [Z.eqb Pos.eqb].
        unfold bind at 1. rewrite (readr_any _ _ _ Hat2). cbn beta iota.
        unfold bind at 1. rewrite (readr_any _ _ _ H3). cbn beta iota.
        unfold bind at 1. rewrite (readr_any _ _ _ H4). cbn beta iota.
        unfold bind at 1. rewrite (readr_any _ _ _ H5). cbn beta iota zeta.
        destruct (_ <? 0); reflexivity. }
      destruct Hesc as [msg Hesc]. specialize (Hesc _ eq_refl).
      assert (Hp2 : forall m bs, scanString_pass2 (S m) bs i s =
         if unicodeCodePointToRune (hd0 t1) (hd0 (tl t1)) (hd0 (tl (tl t1))) (hd0 (tl (tl (tl t1)))) <? 0
         then Ok (inl msg) (adv1 (adv1 (adv1 (adv1 (adv (adv s [c]) [117%Z]) t1) (tl t1)) (tl (tl t1))) (tl (tl (tl t1))))
         else scanString_pass2 m (bs ++ encode_rune (unicodeCodePointToRune (hd0 t1) (hd0 (tl t1)) (hd0 (tl (tl t1))) (hd0 (tl (tl (tl t1))))))
            i (adv1 (adv1 (adv1 (adv1 (adv (adv s [c]) [117%Z]) t1) (tl t1)) (tl (tl t1))) (tl (tl (tl t1))))).
      { intros m bs. cbn [scanString_pass2]. unfold bind at 1. rd Hat.
        replace (c =? eof) with false by (unfold eof; lia). replace (c =? 34) with false by lia. cbn [orb]. rewrite Ebsl.
        unfold bind at 1. rewrite Hesc. destruct (_ <? 0); reflexivity. }
      destruct (unicodeCodePointToRune (hd0 t1) (hd0 (tl t1)) (hd0 (tl (tl t1))) (hd0 (tl (tl (tl t1)))) <? 0) eqn:Eneg.
      * apply Bad.
        -- exact Hat2.
        -- intros bs. eexists _, _. intros m. apply Hp2.
        -- exists 4. rewrite <- Hsk. exact H6.
      * (* all four hex digits are valid, hence present *)
        destruct t1 as [|h1 [|h2 [|h3 [|h4 t2]]]]; try (exfalso; revert Eneg; clear; cbn [hd0 hd tl]; intros Eneg;
          unfold unicodeCodePointToRune in Eneg; change (hexRuneToInt 0) with (-1)%Z in Eneg;
          rewrite ?Z.lor_m1_r in Eneg; change (Z.shiftl (-1) 12) with (-4096)%Z in Eneg;
          change (Z.shiftl (-1) 8) with (-256)%Z in Eneg; change (Z.shiftl (-1) 4) with (-16)%Z in Eneg;
          rewrite ?Z.lor_m1_r in Eneg; discriminate).
        cbn [hd0 hd tl adv1] in *. cbv zeta in Hc. rewrite Eneg in Hc.
        rewrite !adv_adv. cbn [app].
        pose proof (P true _ t2 [117%Z; h1; h2; h3; h4] eq_refl Hc) as HP. rewrite adv_adv in HP. cbn [app] in HP.
        apply HP. intros m bs. eexists. rewrite Hp2. rewrite !adv_adv. cbn [app]. reflexivity.
    + destruct (c_escape e) as [x|] eqn:Ee.
      * apply (P true _ t1 [e] eq_refl Hc).
        intros m bs. eexists. cbn [scanString_pass2]. unfold bind at 1. rd Hat.
        replace (c =? eof) with false by (unfold eof; lia). replace (c =? 34) with false by lia. cbn [orb]. rewrite Ebsl.
        unfold bind at 1. rewrite (escapedChar_ok _ _ _ _ _ Hat1 Ee). reflexivity.
      * apply Bad.
        -- exact Hat2.
        -- intros bs.
           assert (Hm : forall m, scanString_pass2 (S m) bs i s =
              Ok (inl (B "invalid character escape sequence: \" ++ encode_rune e)) (adv (adv s [c]) [e])).
           { intros m. cbn [scanString_pass2]. unfold bind at 1. rd Hat.
             replace (c =? eof) with false by (unfold eof; lia). replace (c =? 34) with false by lia. cbn [orb]. rewrite Ebsl.
             unfold bind at 1. unfold escapedChar. unfold bind at 1. rd Hat1. unfold c_escape in Ee.
             repeat match goal with
             | H : (if ?c then Some _ else _) = None |- _ => destruct c; [discriminate|]
             end.
             replace (e =? 117) with false by lia. reflexivity. }
           eexists _, _. apply Hm.
        -- exists 0. exact Hat2.
  - pose proof (P b _ t [] eq_refl Hc) as HP. rewrite adv_nil in HP. apply HP.
    intros m bs. eexists. cbn [scanString_pass2]. unfold bind at 1. rd Hat.
    replace (c =? eof) with false by (unfold eof; lia). replace (c =? 34) with false by lia. cbn [orb]. rewrite Ebsl.
    reflexivity.
Qed.

Lemma scanString_bad i s cs :
  at_ i s cs -> cstr cs = None ->
  exists msg s', scanString i s = Ok (illegal msg (line s) (Z.of_nat (lpos s))) s'.
Proof.
  intros Hat Hc. unfold scanString. unfold bind at 1, get at 1. cbv zeta. unfold bind at 1, with_fuel at 1.
  pose proof (at_fuel _ _ _ Hat) as Hf.
  destruct (pass1_bad (fuel_of i) false i s cs Hat Hc ltac:(lia)) as [(r & s' & H)|(b & s1 & H & -> & H2)].
  - rewrite H. eexists _, _. reflexivity.
  - rewrite H. unfold bind, put, with_fuel. destruct (H2 (fuel_of i) [] ltac:(lia)) as (msg & s2 & H3).
    rewrite H3. eexists _, _. reflexivity.
Qed.

(** Block strings. *)
Lemma cblk_short cs : (List.length cs < 3)%nat -> cblk cs = None.
Proof.
  assert (P : forall (v : list Z), push v (@None (list Z * list Z)) = None) by reflexivity.
  destruct cs as [|a [|b [|c t]]]; cbn [List.length]; intros H; try lia.
  - reflexivity.
  - cbn [cblk two_quotes]. rewrite andb_false_r. destruct (a =? c_bsl); [reflexivity|].
    destruct (a =? c_cr); [apply P|]. destruct (_ && negb (a =? c_lf)); [reflexivity|apply P].
  - cbn [cblk two_quotes]. rewrite !andb_false_r.
    assert (E : (if b =? c_bsl then None else if b =? c_cr then push (cr_value []) None
       else if (b <? 32) && negb (b =? c_tab) && negb (b =? c_lf) then None else push [b] None) = @None (list Z * list Z)).
    { destruct (b =? c_bsl); [reflexivity|]. destruct (b =? c_cr); [reflexivity|].
      destruct (_ && negb (b =? c_lf)); reflexivity. }
    rewrite E. destruct (a =? c_bsl); [reflexivity|].
    destruct (a =? c_cr); [apply P|]. destruct (_ && negb (a =? c_lf)); [reflexivity|apply P].
Qed.

Lemma isTrip_ok i s t : at_ i s t ->
  if two_quotes t then isTripQuotes i s = Ok true (adv s [34%Z; 34%Z]) /\ exists t2, t = 34%Z :: 34%Z :: t2
  else (2 <= List.length t)%nat /\ isTripQuotes i s = Ok false s
       \/ (List.length t < 2)%nat /\ exists s', isTripQuotes i s = Ok false s' /\ at_ i s' [].
Proof.
  intros Hat. destruct t as [|x [|y t]]; cbn [two_quotes].
  - right. split; [cbn; lia|]. exists s. unfold isTripQuotes, bind. rdn Hat. rdn Hat. split; [reflexivity|exact Hat].
  - right. split; [cbn; lia|]. pose proof (at_cons _ _ _ _ Hat) as H1.
    destruct (at_good _ _ _ _ Hat) as [_ Hnz].
    unfold isTripQuotes, bind. rd Hat. rdn H1.
    change (0 =? 34) with false. rewrite andb_false_r. replace (x =? eof) with false by (unfold eof; lia).
    cbn [negb]. change (0 =? eof) with true. cbn [negb]. unfold unread.
    destruct (Nat.ltb_spec (pos (adv s [x])) 0) as [Hl|_]; [lia|]. unfold ret.
    eexists. split; [reflexivity|]. eapply at_pos; [exact H1|]. cbn [pos]. lia.
  - pose proof (at_cons _ _ _ _ Hat) as H1. pose proof (at_good _ _ _ _ Hat) as [_ Hx].
    pose proof (at_good _ _ _ _ H1) as [_ Hy].
    unfold isTripQuotes, bind. rd Hat. rd H1.
    destruct ((x =? 34) && (y =? 34)) eqn:E.
    + assert (x = 34%Z) by lia. assert (y = 34%Z) by lia. subst. unfold ret. rewrite adv_adv.
      split; [reflexivity|eauto].
    + left. split; [cbn; lia|]. replace (x =? eof) with false by (unfold eof; lia).
      replace (y =? eof) with false by (unfold eof; lia). cbn [negb]. rewrite unread_adv, unread_adv. reflexivity.
Qed.

Lemma bpass1_nil n he hc i s : at_ i s [] -> (0 < n)%nat ->
  exists msg, scanBlock_pass1 n he hc i s = Ok (inl msg) s.
Proof.
  intros Hat Hn. destruct n as [|n]; [lia|]. cbn [scanBlock_pass1]. unfold bind. rdn Hat. eexists. reflexivity.
Qed.

Lemma bpass1 n he hc i s cs :
  at_ i s cs -> (List.length cs < n)%nat ->
  match cblk cs with
  | Some (v, r) => exists he' hc' raw, scanBlock_pass1 n he hc i s = Ok (inr (he', hc')) (adv s raw) /\ cs = raw ++ r
       /\ (he' = false -> hc' = false -> he = false /\ hc = false /\ raw = v ++ [34%Z; 34%Z; 34%Z])
  | None => exists msg s', scanBlock_pass1 n he hc i s = Ok (inl msg) s'
  end.
Proof.
  revert he hc s cs; induction n as [|n IH]; intros he hc s cs Hat Hn; [lia|].
  destruct cs as [|c t].
  { cbn [cblk]. destruct (bpass1_nil (S n) he hc i s Hat ltac:(lia)) as [msg H]. eauto. }
  pose proof (at_cons _ _ _ _ Hat) as Hat1. cbn [List.length] in Hn.
  destruct (at_good _ _ _ _ Hat) as [_ Hnz].
  assert (Hstep : scanBlock_pass1 (S n) he hc i s =
    (if c =? c_bsl then
        '(r, _) <- readr ;;
        if r =? 34 then
          t <- isTripQuotes ;;
          scanBlock_pass1 n (if t then true else he) hc
        else scanBlock_pass1 n he hc
      else if c =? c_cr then scanBlock_pass1 n he true
      else if (c <? 32) && negb (c =? c_tab) && negb (c =? c_lf) && negb (c =? c_cr) then
        ret (inl (bs_bad_msg c))
      else if c =? 34 then
        t <- isTripQuotes ;;
        if t then ret (inr (he, hc)) else scanBlock_pass1 n he hc
      else scanBlock_pass1 n he hc) i (adv s [c])).
  { cbn [scanBlock_pass1]. unfold bind at 1. rd Hat. replace (c =? eof) with false by (unfold eof; lia). reflexivity. }
  (* recursion *)
  assert (P : forall he1 hc1 w t1 pre, t = pre ++ t1 ->
     (he1 = false -> hc1 = false -> he = false /\ hc = false /\ w = c :: pre) ->
     match push w (cblk t1) with
     | Some (v, r) => exists he' hc' raw, scanBlock_pass1 n he1 hc1 i (adv (adv s [c]) pre) = Ok (inr (he', hc')) (adv s raw)
          /\ c :: t = raw ++ r
          /\ (he' = false -> hc' = false -> he = false /\ hc = false /\ raw = v ++ [34%Z; 34%Z; 34%Z])
     | None => exists msg s', scanBlock_pass1 n he1 hc1 i (adv (adv s [c]) pre) = Ok (inl msg) s'
     end).
  { intros he1 hc1 w t1 pre Et Hw.
    assert (HL : (List.length t1 < n)%nat) by (rewrite Et, app_length in Hn; lia).
    pose proof (IH he1 hc1 _ _ (at_app _ _ _ _ _ Hat1 Et) HL) as H. unfold push.
    destruct (cblk t1) as [[v r]|]; [|exact H].
    destruct H as (he' & hc' & raw & H1 & H2 & H3). exists he', hc', (c :: pre ++ raw).
    rewrite H1, !adv_adv. cbn [app]. split; [reflexivity|].
    split; [rewrite Et, H2, <- app_assoc; reflexivity|].
    intros A A'. destruct (H3 A A') as (E1 & E2 & E3). destruct (Hw E1 E2) as (F1 & F2 & ->).
    rewrite E3. cbn [app]. rewrite <- app_assoc. auto. }
  rewrite Hstep. clear Hstep. cbn [cblk].
  destruct (Z.eqb_spec c c_bsl) as [Ec|_].
  - destruct t as [|e t1].
    { unfold bind. rdn Hat1. change (0 =? 34) with false. cbn beta iota.
      destruct (bpass1_nil n he hc i _ Hat1 ltac:(lia)) as [msg H]. rewrite H. eauto. }
    pose proof (at_cons _ _ _ _ Hat1) as Hat2.
    assert (Hs : ('(r, _) <- readr ;;
        if r =? 34 then
          t <- isTripQuotes ;;
          scanBlock_pass1 n (if t then true else he) hc
        else scanBlock_pass1 n he hc) i (adv s [c]) =
        (if e =? 34 then t <- isTripQuotes ;; scanBlock_pass1 n (if t then true else he) hc
        else scanBlock_pass1 n he hc) i (adv (adv s [c]) [e])).
    { unfold bind at 1. rd Hat1. reflexivity. }
    rewrite Hs. clear Hs.
    destruct (Z.eqb_spec e 34) as [->|]; cbn [andb].
    + pose proof (isTrip_ok _ _ _ Hat2) as Ht. unfold bind. destruct (two_quotes t1) eqn:E2.
      * destruct Ht as [Ht [t2 ->]]. rewrite Ht.
        pose proof (P true hc [34%Z; 34%Z; 34%Z] t2 [34%Z; 34%Z; 34%Z] eq_refl ltac:(discriminate)) as H.
        rewrite !adv_adv in *. cbn [app] in *. exact H.
      * destruct Ht as [[_ Ht]|[HL (s' & Ht & Hnil)]]; rewrite Ht.
        -- exact (P he hc [c; 34%Z] t1 [34%Z] eq_refl ltac:(auto)).
        -- rewrite (cblk_short t1) by lia. cbn [push].
           destruct (bpass1_nil n he hc i _ Hnil ltac:(lia)) as [msg H]. rewrite H. eauto.
    + exact (P he hc [c; e] t1 [e] eq_refl ltac:(auto)).
  - destruct (c =? c_cr) eqn:Ecr.
    { pose proof (P he true (cr_value t) t [] eq_refl ltac:(discriminate)) as H. rewrite adv_nil in H. exact H. }
    cbn [negb]. rewrite andb_true_r.
    destruct ((c <? 32) && negb (c =? c_tab) && negb (c =? c_lf)); [eexists _, _; reflexivity|].
    pose proof (P he hc [c] t [] eq_refl ltac:(auto)) as HP. rewrite adv_nil in HP.
    destruct (Z.eqb_spec c 34) as [->|]; cbn [andb]; [|exact HP].
    pose proof (isTrip_ok _ _ _ Hat1) as Ht. unfold bind. destruct (two_quotes t) eqn:E2.
    + destruct Ht as [Ht [t2 ->]]. rewrite Ht. exists he, hc, [34%Z; 34%Z; 34%Z].
      rewrite adv_adv. cbn [app]. repeat split; auto.
    + destruct Ht as [[_ Ht]|[HL (s' & Ht & Hnil)]]; rewrite Ht; [exact HP|].
      rewrite (cblk_short t) by lia. cbn [push].
      destruct (bpass1_nil n he hc i _ Hnil ltac:(lia)) as [msg H]. rewrite H. eauto.
Qed.

(** The byte the code inspects after a carriage return. *)
Lemma cr_byte i s t : at_ i s t -> (2 <= List.length t)%nat ->
  exists b, nth_error i (pos s + 1) = Some b /\
    (if zb b =? 10 then [] else encode_rune c_lf) = text (cr_value t).
Proof.
  intros (Hp & Hs & Hg) HL. destruct t as [|x [|y t]]; cbn in HL; try lia.
  inversion Hg as [|? ? [Hx _] Hg']; subst. inversion Hg' as [|? ? [Hy _] _]; subst.
  rewrite !utf8s_cons in Hs.
  assert (Hnth : nth_error i (pos s + 1) = nth_error (utf8 x ++ utf8 y ++ utf8s t) 1).
  { rewrite <- Hs. rewrite <- (firstn_skipn (pos s) i) at 1.
    rewrite nth_error_app2 by (rewrite firstn_length; lia). f_equal. rewrite firstn_length. lia. }
  rewrite Hnth. cbn [cr_value]. destruct (x <? 128) eqn:Ex.
  - rewrite (utf8_1 x) by (unfold scalar in Hx; lia). cbn [app nth_error].
    destruct (utf8 y) as [|b u] eqn:Eu; [exfalso; apply (utf8_nonempty y Eu)|].
    exists b. split; [reflexivity|]. pose proof (utf8_head y b u Hy Eu) as Hh.
    destruct (Z.eqb_spec y c_lf) as [->|Hne].
    + rewrite utf8_1 in Eu by (unfold c_lf; lia). apply (f_equal (hd zero)) in Eu. cbn [hd] in Eu. subst b. reflexivity.
    + destruct (Z.eqb_spec (zb b) 10) as [Hb|_]; [|reflexivity]. exfalso. apply Hne. unfold c_lf.
      destruct (Z.ltb_spec y 128) as [Hlt|Hge].
      * rewrite utf8_1 in Eu by (unfold scalar in Hy; lia). apply (f_equal (hd zero)) in Eu. cbn [hd] in Eu. subst b.
        rewrite zb_bz in Hb by (unfold scalar in Hy; lia). exact Hb.
      * lia.
  - assert (H2 : exists b0 b1 u, utf8 x = b0 :: b1 :: u /\ (128 <= zb b1)%Z).
    { unfold utf8. rewrite Ex. assert (R : forall z, (128 <= zb (bz (128 + z mod 64)))%Z).
      { intros z. pose proof (Z.mod_pos_bound z 64 ltac:(lia)). rewrite zb_bz; lia. }
      destruct (x <? 2048); [eexists _, _, _; split; [reflexivity|apply R]|].
      destruct (x <? 65536); eexists _, _, _; (split; [reflexivity|apply R]). }
    destruct H2 as (b0 & b1 & u & -> & Hb). exists b1. split; [reflexivity|].
    replace (zb b1 =? 10) with false by lia. reflexivity.
Qed.

Lemma text_app a b : text (a ++ b) = text a ++ text b.
Proof. apply flat_map_app. Qed.

Lemma bpass2 n bs i s cs v r :
  at_ i s cs -> (List.length cs < n)%nat -> cblk cs = Some (v, r) ->
  exists raw, scanBlock_pass2 n bs i s = Ok (inr (bs ++ text v)) (adv s raw) /\ cs = raw ++ r.
Proof.
  revert bs s cs v; induction n as [|n IH]; intros bs s cs v Hat Hn Hc; [lia|].
  destruct cs as [|c t]; [discriminate|].
  pose proof (at_cons _ _ _ _ Hat) as Hat1. cbn [List.length] in Hn.
  destruct (at_good _ _ _ _ Hat) as [_ Hnz].
  assert (P : forall w t1 pre, t = pre ++ t1 -> push w (cblk t1) = Some (v, r) ->
     exists raw, scanBlock_pass2 n (bs ++ text w) i (adv (adv s [c]) pre) = Ok (inr (bs ++ text v)) (adv s raw)
          /\ c :: t = raw ++ r).
  { intros w t1 pre Et Hw. unfold push in Hw. destruct (cblk t1) as [[v' r']|] eqn:E1; [|discriminate].
    injection Hw as <- <-.
    assert (HL : (List.length t1 < n)%nat) by (rewrite Et, app_length in Hn; lia).
    destruct (IH (bs ++ text w) _ _ _ (at_app _ _ _ _ _ Hat1 Et) HL E1) as (raw & H1 & H2).
    exists (c :: pre ++ raw). rewrite H1, !adv_adv, text_app, <- !app_assoc. cbn [app].
    split; [reflexivity|]. rewrite Et, H2, <- app_assoc. reflexivity. }
  assert (P1 : push [c] (cblk t) = Some (v, r) ->
     exists raw, scanBlock_pass2 n (bs ++ encode_rune c) i (adv s [c]) = Ok (inr (bs ++ text v)) (adv s raw)
          /\ c :: t = raw ++ r).
  { intros Hp. pose proof (P [c] t [] eq_refl Hp) as H. rewrite adv_nil in H. cbn [text flat_map] in H.
    rewrite app_nil_r in H. exact H. }
  cbn [cblk] in Hc. cbn [scanBlock_pass2]. unfold bind at 1. rd Hat.
  replace (c =? eof) with false by (unfold eof; lia).
  destruct (Z.eqb_spec c c_lf) as [->|Hlf]; [apply P1; exact Hc|].
  destruct (Z.eqb_spec c c_bsl) as [->|Hbsl].
  - change (c_bsl =? c_cr) with false. cbn beta iota.
    destruct t as [|e t1]; [discriminate|]. unfold bind at 1. rd Hat1.
    pose proof (at_cons _ _ _ _ Hat1) as Hat2.
    destruct (Z.eqb_spec e 34) as [->|]; cbn [andb] in Hc.
    + pose proof (isTrip_ok _ _ _ Hat2) as Ht. unfold bind. destruct (two_quotes t1) eqn:E2.
      * destruct Ht as [Ht [t2 ->]]. rewrite Ht.
        destruct (P _ t2 [34%Z; 34%Z; 34%Z] eq_refl Hc) as (raw & H1 & H2).
        exists raw. rewrite !adv_adv in *. cbn [app] in *. split; [exact H1|exact H2].
      * destruct Ht as [[_ Ht]|[HL (s' & Ht & Hnil)]]; rewrite Ht.
        -- destruct (P _ t1 [34%Z] eq_refl Hc) as (raw & H1 & H2). exists raw. split; [exact H1|exact H2].
        -- rewrite (cblk_short t1) in Hc by lia. discriminate.
    + destruct (P _ t1 [e] eq_refl Hc) as (raw & H1 & H2). exists raw. cbn [text flat_map] in H1.
      rewrite app_nil_r in H1. split; [exact H1|exact H2].
  - destruct (Z.eqb_spec c c_cr) as [->|Hcr].
    + unfold bind, input, get.
      destruct (cr_byte _ _ _ Hat1) as (b & Hb & Hv).
      { destruct (Nat.le_gt_cases 2 (List.length t)) as [H|H]; [exact H|].
        rewrite (cblk_short t) in Hc by lia. discriminate. }
      rewrite Hb. pose proof (P _ t [] eq_refl Hc) as H. rewrite adv_nil in H. rewrite <- Hv in H.
      destruct (zb b =? 10); [rewrite app_nil_r in H|]; exact H.
    + replace (c =? c_lf) with false in * by lia. replace (c =? c_cr) with false by lia. cbn [negb] in *.
      rewrite !andb_true_r in *.
      destruct (Z.eqb_spec c 34) as [->|].
      * cbn [andb] in Hc. change ((34 <? 32) && negb (34 =? c_tab)) with false in *. cbn beta iota in *.
        pose proof (isTrip_ok _ _ _ Hat1) as Ht. unfold bind. destruct (two_quotes t) eqn:E2.
        -- destruct Ht as [Ht [t2 ->]]. rewrite Ht. injection Hc as <- <-.
           exists [34%Z; 34%Z; 34%Z]. rewrite adv_adv. cbn. rewrite app_nil_r. split; reflexivity.
        -- destruct Ht as [[_ Ht]|[HL (s' & Ht & Hnil)]]; rewrite Ht; [apply P1; exact Hc|].
           rewrite (cblk_short t) in Hc by lia. discriminate.
      * cbn [andb] in Hc. unfold bind, ret. destruct ((c <? 32) && negb (c =? c_tab)); [discriminate|].
        apply P1; exact Hc.
Qed.

Lemma split_lf_pos raw : (1 <= List.length (split_lf raw))%nat.
Proof. destruct raw as [|b t]; cbn; [lia|]. destruct (zb b =? 10); [cbn; lia|]. destruct (split_lf t); cbn; lia. Qed.

Lemma scanBlockString_ok i s cs :
  at_ i s cs -> (2 <= lpos s)%nat ->
  match cblk cs with
  | Some (v, r) => exists raw s',
      scanBlockString i s = Ok (mkTok KString (blockStringValue (text v)) (line s) (Z.of_nat (lpos s) - 2)) s'
      /\ cs = raw ++ r /\ at_ i s' r /\ line s' = (line s + count_lf (text v))%nat
      /\ lpos s' = (lpos s + List.length raw)%nat
  | None => exists msg s', scanBlockString i s = Ok (illegal msg (line s) (Z.of_nat (lpos s) - 2)) s'
  end.
Proof.
  intros Hat Hlp. pose proof (at_fuel _ _ _ Hat) as Hf.
  pose proof (bpass1 (fuel_of i) false false i s cs Hat ltac:(lia)) as H1.
  destruct (cblk cs) as [[v r]|] eqn:Ec.
  2:{ destruct H1 as (msg & s' & H1). unfold scanBlockString, bind, get, with_fuel. rewrite H1. eexists _, _. reflexivity. }
  destruct H1 as (he & hc & raw & H1 & H2 & H3).
  assert (K : forall s1 raw1, cs = raw1 ++ r -> s1 = adv s raw1 -> forall lit s', 
    lit = blockStringValue (text v) ->
    s' = mkL (pos s1) (lpos s1) (line s1 + List.length (split_lf (text v)) - 1) ->
    exists raw s'', Ok (mkTok KString lit (line s) (Z.of_nat (lpos s) - 2)) s' =
       Ok (mkTok KString (blockStringValue (text v)) (line s) (Z.of_nat (lpos s) - 2)) s''
      /\ cs = raw ++ r /\ at_ i s'' r /\ line s'' = (line s + count_lf (text v))%nat
      /\ lpos s'' = (lpos s + List.length raw)%nat).
  { intros s1 raw1 Er -> lit s' -> ->. eexists raw1, _. split; [reflexivity|]. split; [exact Er|].
    split; [eapply at_pos; [apply (at_app _ _ _ _ _ Hat Er)|reflexivity]|].
    cbn [line lpos adv]. unfold count_lf. pose proof (split_lf_pos (text v)). split; lia. }
  unfold scanBlockString. unfold bind at 1, get at 1. cbv zeta. unfold bind at 1, with_fuel at 1. rewrite H1.
  destruct (negb hc && negb he) eqn:Eb.
  - destruct hc, he; try discriminate. destruct (H3 eq_refl eq_refl) as (_ & _ & ->).
    unfold bind, get.
    rewrite (slice_at i s v ([34%Z; 34%Z; 34%Z] ++ r)).
    + unfold blockStringLiteral, ret. eapply K; [exact H2|reflexivity| |].
      * rewrite text_utf8; [reflexivity|]. destruct Hat as (_ & _ & Hg). rewrite H2, <- app_assoc in Hg.
        apply Forall_app_l in Hg. apply good_scalar, Hg.
      * rewrite text_utf8; [reflexivity|]. destruct Hat as (_ & _ & Hg). rewrite H2, <- app_assoc in Hg.
        apply Forall_app_l in Hg. apply good_scalar, Hg.
    + rewrite H2, <- app_assoc in Hat. exact Hat.
    + reflexivity.
    + unfold adv. cbn [pos]. rewrite utf8s_app, app_length. change (List.length (utf8s [34%Z; 34%Z; 34%Z])) with 3%nat. lia.
  - unfold bind, put, with_fuel.
    destruct (bpass2 (fuel_of i) [] i s cs v r Hat ltac:(lia) Ec) as (raw2 & H4 & H5). rewrite H4.
    unfold blockStringLiteral, ret. cbn [app]. eapply K; [exact H5|reflexivity|reflexivity|reflexivity].
Qed.

(** ** One token. *)
Definition agrees (i : bytes) (o : outcome token) (c : cres) : Prop :=
  match c with
  | CEof l c => exists s', o = Ok (mkTok KEOF [] l c) s'
  | CIll l c => exists msg s', o = Ok (illegal msg l c) s'
  | CTok k lit l c r ln lp =>
      exists s', o = Ok (mkTok k lit l c) s' /\ at_ i s' r /\ line s' = ln /\ lpos s' = lp
  end.

Lemma cblk_suffix cs v r : cblk cs = Some (v, r) -> Forall good cs -> exists raw, cs = raw ++ r.
Proof.
  intros H Hg. pose proof (bpass1 (S (List.length cs)) false false (utf8s cs) (mkL 0 0 0) cs) as P.
  rewrite H in P. destruct P as (_ & _ & raw & _ & Hr & _).
  - split; [cbn; lia|]. split; [reflexivity|exact Hg].
  - lia.
  - eauto.
Qed.

Lemma scan_sig i s1 c t n :
  at_ i s1 (c :: t) -> (c =? 35) = false ->
  forall s r w, readNextSignificant i s = Ok (r, w) (adv s1 [c]) -> r = c -> w = List.length (utf8 c) ->
  agrees i (scan_loop (S n) i s) (ctoken (c :: t) (line s1) (lpos s1)).
Proof.
  intros Hat H35 s r w Hr -> ->. cbn [scan_loop ctoken]. unfold bind at 1. rewrite Hr.
  pose proof (at_cons _ _ _ _ Hat) as Hat1. destruct (at_good _ _ _ _ Hat) as [Hsc Hnz].
  destruct (is_name_start c) eqn:E1.
  { destruct (span is_name_cont t) as [nm r] eqn:Es.
    rewrite (scanName_ok _ _ _ _ _ _ Hat E1 Es). eexists. split; [reflexivity|].
    split; [apply (at_app i s1 (c :: t)); [exact Hat|apply span_spec in Es; subst t; reflexivity]|].
    unfold adv. cbn [line lpos List.length]. split; lia. }
  destruct (is_punct c) eqn:E2.
  { assert (Hrg : (0 <= c < 128)%Z) by (unfold is_punct in E2; lia).
    destruct (Z.eqb_spec c 46) as [->|Hd].
    - pose proof (scanDots i s1 t Hat) as Hd.
      destruct (match t with x :: y :: _ => (x =? 46) && (y =? 46) | _ => false end) eqn:E3.
      + rewrite Hd. eexists. split; [reflexivity|]. destruct t as [|x [|y t]]; try discriminate.
        assert (x = 46%Z) by lia. assert (y = 46%Z) by lia. subst.
        split; [apply (at_adv i s1 [46%Z; 46%Z; 46%Z] t Hat)|]. unfold adv. cbn [line lpos List.length]. split; lia.
      + destruct (scanDots_ill i s1 t Hat E3) as (msg & s' & ->). eexists _, _. reflexivity.
    - rewrite (scanPunct_ok _ _ _ _ Hat Hrg) by lia. eexists. split; [reflexivity|]. split; [exact Hat1|].
      unfold adv. cbn [line lpos List.length]. split; lia. }
  destruct (is_digit c || (c =? 45)) eqn:E3.
  { assert (Hrg : (0 <= c < 128)%Z) by (unfold is_digit in E3; lia).
    pose proof (scanNumber_ok _ _ _ _ Hat Hrg) as Hn.
    destruct (cnum (c :: t)) as [[[lex fl] r]|].
    - destruct Hn as [Hn Er]. rewrite Hn. eexists. split; [reflexivity|].
      split; [apply (at_app _ _ _ _ _ Hat Er)|]. unfold adv. cbn [line lpos]. split; lia.
    - destruct Hn as (msg & s' & ->). eexists _, _. reflexivity. }
  rewrite H35. destruct (Z.eqb_spec c 34) as [->|Hq].
  { destruct (two_quotes t) eqn:E4.
    - destruct t as [|x [|y t]]; try discriminate. cbn [two_quotes] in E4.
      assert (x = 34%Z) by lia. assert (y = 34%Z) by lia. subst. clear E4.
      pose proof (at_cons _ _ _ _ Hat1) as Hat2. pose proof (at_cons _ _ _ _ Hat2) as Hat3.
      cbn [skipn]. unfold bind at 1. rd Hat1. unfold bind at 1. rd Hat2. change ((34 =? 34) && (34 =? 34)) with true.
      cbn beta iota. pose proof (scanBlockString_ok _ _ _ Hat3) as Hb.
      rewrite !adv_adv in *. cbn [app] in *.
      assert (Hlp : lpos (adv s1 [34%Z; 34%Z; 34%Z]) = (lpos s1 + 3)%nat) by reflexivity.
      specialize (Hb ltac:(rewrite Hlp; lia)).
      assert (Hcol : (Z.of_nat (lpos (adv s1 [34%Z; 34%Z; 34%Z])) - 2)%Z = (Z.of_nat (lpos s1) + 1)%Z) by (rewrite Hlp; lia).
      rewrite Hcol in Hb. change (line (adv s1 [34%Z; 34%Z; 34%Z])) with (line s1) in Hb.
      destruct (cblk t) as [[raw r]|] eqn:Ec.
      + destruct Hb as (pre & s' & H1 & H2 & H3 & H4 & H5). rewrite H1.
        eexists. split; [reflexivity|]. split; [exact H3|]. split; [exact H4|]. rewrite H5, Hlp, H2.
        cbn [List.length]. rewrite app_length. lia.
      + destruct Hb as (msg & s' & ->). eexists _, _. reflexivity.
    - assert (Hu : ('(r1, w1) <- readr ;;
        '(r2, w2) <- readr ;;
        if (r1 =? 34) && (r2 =? 34) then scanBlockString
        else unread w2 ;;; unread w1 ;;; scanString) i (adv s1 [34%Z]) =
        scanString i (mkL (pos (adv s1 [34%Z])) (lpos s1 + 1 - (2 - List.length t)) (line s1))).
      { unfold bind at 1. rewrite (readr_any _ _ _ Hat1). cbn beta iota. pose proof (at_adv1 _ _ _ Hat1) as Hat2.
        unfold bind at 1. rewrite (readr_any _ _ _ Hat2). cbn beta iota.
        replace ((hd0 t =? 34) && (hd0 (tl t) =? 34)) with false.
        2:{ destruct t as [|x [|y t]]; cbn in *; try lia. }
        unfold bind. destruct t as [|x [|y t]]; cbn [tl hdw adv1].
        - unfold unread. cbn [Nat.ltb Nat.leb]. unfold Nat.ltb. cbn [Nat.leb pos lpos line]. f_equal.
          unfold adv. cbn [pos lpos line List.length]. f_equal; lia.
        - unfold unread at 1. unfold Nat.ltb. cbn [Nat.leb].
          unfold unread, adv. cbn [pos lpos line List.length utf8s flat_map]. rewrite !app_nil_r.
          destruct (Nat.ltb_spec (pos s1 + List.length (utf8 34) + List.length (utf8 x) - 0) (List.length (utf8 x))) as [Hl|_]; [lia|].
          f_equal. f_equal; try lia.
        - rewrite !unread_adv. f_equal. unfold adv. cbn [pos lpos line List.length]. f_equal; lia. }
      rewrite Hu. clear Hu.
      set (s2 := mkL (pos (adv s1 [34%Z])) (lpos s1 + 1 - (2 - List.length t)) (line s1)).
      assert (Hat2 : at_ i s2 t) by (eapply at_pos; [exact Hat1|reflexivity]).
      change (line s1) with (line s2). change (lpos s1 + 1 - (2 - List.length t))%nat with (lpos s2).
      destruct (cstr t) as [[v r]|] eqn:Ec.
      + destruct (scanString_ok _ _ _ _ _ Hat2 Ec) as (raw & H1 & H2). rewrite H1. eexists. split; [reflexivity|].
        split; [apply (at_app _ _ _ _ _ Hat2 H2)|]. unfold adv. cbn [line lpos]. split; [reflexivity|].
        rewrite H2, app_length. lia.
      + destruct (scanString_bad _ _ _ Hat2 Ec) as (msg & s' & ->). eexists _, _. reflexivity. }
  replace (c =? eof) with false by (unfold eof; lia).
  unfold bind, get, ret. eexists _, _. unfold illegal. f_equal. f_equal. unfold adv. cbn [lpos List.length]. lia.
Qed.

Lemma scan_loop_agrees n i s cs :
  at_ i s cs -> (List.length cs < n)%nat -> agrees i (scan_loop n i s) (cscan cs (line s) (lpos s)).
Proof.
  revert s cs; induction n as [|n IH]; intros s cs Hat Hn; [lia|].
  unfold cscan. rewrite skip_skip0.
  pose proof (rns_loop (fuel_of i) false i s cs Hat ltac:(apply at_fuel in Hat; lia)) as Hr.
  pose proof (skip0_length cs false (line s) (lpos s)) as HL.
  destruct (skip0 cs false (line s) (lpos s)) as [[r ln] lp].
  destruct Hr as (s1 & Hat1 & Hln & Hlp & Hr). subst ln lp.
  destruct r as [|c t].
  { cbn [ctoken agrees]. cbn [scan_loop]. unfold bind at 1, readNextSignificant, with_fuel. rewrite Hr.
    eexists. reflexivity. }
  destruct Hr as (Hr & _ & _ & _).
  destruct (c =? 35) eqn:E35.
  2:{ apply (scan_sig i s1 c t n Hat1 E35 s c (List.length (utf8 c))); auto. }
  assert (c = 35%Z) by lia. subst c.
  rewrite (proj1 (skip_skipc _ _ _)). pose proof (at_cons _ _ _ _ Hat1) as Hat2.
  pose proof (com_loop (fuel_of i) false i _ _ Hat2 ltac:(apply at_fuel in Hat2; lia)) as Hc.
  change (line (adv s1 [35%Z])) with (line s1) in Hc. change (lpos (adv s1 [35%Z])) with (lpos s1 + 1)%nat in Hc.
  pose proof (skipc_length t false (line s1) (lpos s1 + 1)) as HL2.
  destruct (skipc t false (line s1) (lpos s1 + 1)) as [[r ln] lp].
  destruct Hc as (s2 & Hat3 & Hln & Hlp & Hc). subst ln lp.
  assert (E : scan_loop (S n) i s = scan_loop n i s2).
  { cbn [scan_loop]. unfold bind at 1. unfold readNextSignificant, with_fuel. rewrite Hr.
    change (is_name_start 35) with false. change (is_punct 35) with false.
    change (is_digit 35 || (35 =? 45)) with false. change (35 =? 35) with true. cbn beta iota.
    unfold bind at 1. rewrite Hc. reflexivity. }
  rewrite E. apply (IH s2 r Hat3). cbn [List.length] in HL. lia.
Qed.

Theorem scan_agrees i s cs : at_ i s cs -> agrees i (scan i s) (cscan cs (line s) (lpos s)).
Proof. intros H. unfold scan, with_fuel. apply scan_loop_agrees; [exact H|]. apply at_fuel in H. lia. Qed.

(** ** The whole token list. *)
Definition strip (t : token) : kind * bytes * nat * Z :=
  (tkind t, match tkind t with KIllegal => [] | _ => tlit t end, tline t, tcol t).

Lemma ctoken_kind cs ln lp k lit l c r ln' lp' :
  ctoken cs ln lp = CTok k lit l c r ln' lp' -> k <> KEOF /\ k <> KIllegal.
Proof.
  unfold ctoken. destruct cs as [|x t]; [discriminate|].
  destruct (is_name_start x).
  { destruct (span is_name_cont t). intros H; injection H as <- _ _ _ _ _ _. split; discriminate. }
  destruct (is_punct x).
  { destruct (x =? 46).
    - destruct (match t with x :: y :: _ => (x =? 46) && (y =? 46) | _ => false end); [|discriminate].
      intros H; injection H as <- _ _ _ _ _ _. split; discriminate.
    - intros H; injection H as <- _ _ _ _ _ _. split; discriminate. }
  destruct (is_digit x || (x =? 45)).
  { destruct (cnum (x :: t)) as [[[lex fl] r']|]; [|discriminate].
    intros H; injection H as <- _ _ _ _ _ _. destruct fl; split; discriminate. }
  destruct (x =? 34); [|discriminate]. destruct (two_quotes t).
  - destruct (cblk (skipn 2 t)) as [[raw r']|]; [|discriminate].
    intros H; injection H as <- _ _ _ _ _ _. split; discriminate.
  - destruct (cstr t) as [[v r']|]; [|discriminate].
    intros H; injection H as <- _ _ _ _ _ _. split; discriminate.
Qed.

Lemma clex_agrees n i s cs ts s' :
  at_ i s cs -> lex_loop n i s = Ok ts s' -> map strip ts = clex n cs (line s) (lpos s).
Proof.
  revert s cs ts s'; induction n as [|n IH]; intros s cs ts s' Hat Hl; [discriminate|].
  cbn [lex_loop] in Hl. cbn [clex]. pose proof (scan_agrees _ _ _ Hat) as Ha.
  destruct (cscan cs (line s) (lpos s)) as [l c|l c|k lit l c r ln lp] eqn:Ec; cbn [agrees] in Ha.
  - destruct Ha as (s1 & Ha). rewrite Ha in Hl. injection Hl as <- <-. reflexivity.
  - destruct Ha as (msg & s1 & Ha). rewrite Ha in Hl. injection Hl as <- <-. reflexivity.
  - destruct Ha as (s1 & Ha & Hat' & <- & <-). rewrite Ha in Hl.
    unfold cscan in Ec. destruct (skip cs (Norm false) (line s) (lpos s)) as [[? ?] ?].
    apply ctoken_kind in Ec as [Hk1 Hk2].
    assert (El : is_last (mkTok k lit l c) = false) by (destruct k; try reflexivity; congruence).
    rewrite El in Hl. destruct (lex_loop n i s1) as [ts1 s2| |] eqn:E1; try discriminate.
    injection Hl as <- <-. cbn [map]. rewrite (IH _ _ _ _ Hat' E1). f_equal.
    unfold strip. cbn [tkind tlit tline tcol]. destruct k; try reflexivity; congruence.
Qed.

(** On clean sources the tokens are those of the code-point lexer. *)
Theorem lex_all_clex cs ts s' :
  Forall good cs -> lex_all (utf8s cs) = Ok ts s' ->
  map strip ts = clex (fuel_of (utf8s cs)) cs 1 0.
Proof.
  intros Hg Hl. unfold lex_all in Hl. eapply (clex_agrees _ _ lex_init); [|exact Hl].
  split; [cbn; lia|]. split; [reflexivity|exact Hg].
Qed.
