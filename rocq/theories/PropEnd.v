(** * PropEnd: C01, continued — the end of the text.  Once Scan has returned EOF it returns EOF for ever, if the text has no NUL. *)
From Verif Require Import Base Utf8 Utf8Proofs Lexer LexerTotal.
From Coq Require Import ZifyBool ZifyNat ZifyN.

(** At the end of the text Scan returns EOF and nothing changes. *)
Theorem C01_after_end : forall (i : bytes) (s : lst), pos s = List.length i ->
  scan i s = Ok (mkTok KEOF [] (line s) (Z.of_nat (lpos s) + 1)%Z) s.
Proof.
  intros i s H. assert (R : readr i s = Ok (eof, 0) s).
  { rewrite readr_eq by lia. rewrite H, skipn_all. cbn [next]. unfold step. cbn. rewrite Nat.add_0_r. destruct s; reflexivity. }
  unfold scan, with_fuel. unfold fuel_of at 1. cbn [scan_loop]. unfold bind at 1. unfold readNextSignificant, with_fuel. unfold fuel_of at 1.
  cbn [readNextSignificant_loop]. unfold bind at 1. rewrite R. reflexivity.
Qed.
Print Assumptions C01_after_end.

Definition no_nul (i : bytes) : Prop := Forall (fun b => zb b <> 0%Z) i.
Lemma next_zero p r w a : next p = (r, w, a) -> no_nul p -> r = 0%Z -> a = List.length p.
Proof.
  unfold next. destruct p as [|b t]; intros E N Hr; [injection E as <- <- <-; reflexivity|]. pose proof (Forall_inv N) as Nb; cbv beta in Nb.
  destruct (Z.ltb_spec (zb b) 128); [injection E as E1 E2 E3; congruence|]. destruct t as [|b2 t]; [injection E as <- <- <-; reflexivity|].
  exfalso. pose proof (decode_rune_ge b (b2 :: t) ltac:(lia)) as G. destruct (decode_rune (b :: b2 :: t)) as [r' w']. injection E as <- <- <-. cbn in G. lia.
Qed.
Lemma no_nul_skipn n i : no_nul i -> no_nul (skipn n i).
Proof. intros H. unfold no_nul in *. rewrite <- (firstn_skipn n i) in H. apply Forall_app in H. tauto. Qed.
Lemma significant_end i : no_nul i -> forall n b s r w s', (pos s <= List.length i)%nat ->
  readNextSignificant_loop n b i s = Ok (r, w) s' -> r = 0%Z -> pos s' = List.length i.
Proof.
  intros N. induction n as [|n IH]; intros b s r w s' Hp H Hr; [discriminate|]. cbn [readNextSignificant_loop] in H. unfold bind at 1 in H. rewrite readr_eq in H by exact Hp.
  destruct (next (skipn (pos s) i)) as [[r1 w1] a] eqn:E. pose proof (next_facts _ _ _ _ E) as (F1 & F2 & F3 & F4 & F5 & F6). rewrite skipn_length in F1.
  assert (Hs : (pos (step s a) <= List.length i)%nat) by (unfold step; cbn [pos]; lia).
  destruct (r1 =? c_cr)%Z; [unfold bind, newline in H; eapply (IH true _ _ _ _ _ H Hr); exact Hs|].
  destruct (r1 =? c_lf)%Z; [destruct b; unfold bind, newline, ret in H; eapply (IH _ _ _ _ _ _ H Hr); exact Hs|].
  destruct ((r1 =? c_tab)%Z || (r1 =? c_ws)%Z || (r1 =? c_com)%Z || (r1 =? c_bom)%Z); [eapply (IH _ _ _ _ _ Hs H Hr)|].
  unfold ret in H. injection H as -> <- <-. pose proof (next_zero _ _ _ _ E (no_nul_skipn _ _ N) Hr) as L. rewrite skipn_length in L. unfold step. cbn [pos]. lia.
Unshelve. all: exact Hs.
Qed.
Lemma not_eof m i s (Q : token -> lst -> Prop) t s' : safe m i s (fun t s' => Q t s' /\ tkind t <> KEOF) -> m i s = Ok t s' -> tkind t = KEOF -> False.
Proof. unfold safe. intros H E K. rewrite E in H. tauto. Qed.

Lemma scan_eof i : forall n s t s', (pos s <= List.length i)%nat -> scan_loop n i s = Ok t s' -> tkind t = KEOF ->
  t = mkTok KEOF [] (line s') (Z.of_nat (lpos s') + 1)%Z /\ (no_nul i -> pos s' = List.length i).
Proof.
  induction n as [|n IH]; intros s t s' Hp H K; [discriminate|]. cbn [scan_loop] in H. unfold bind at 1 in H. unfold readNextSignificant, with_fuel in H.
  pose proof (readNextSignificant_safe (fuel_of i) false i s Hp ltac:(unfold fuel_of; lia)) as S1. unfold safe in S1.
  destruct (readNextSignificant_loop (fuel_of i) false i s) as [[r w] s1| |] eqn:E; try discriminate. cbv beta iota in H.
  destruct (is_name_start r) eqn:En.
  { exfalso. assert (r <> 0%Z) by (unfold is_name_start, is_upper, is_lower in En; lia). pose proof (scanName_safe i s1 ltac:(lia)) as F. unfold safe in F. rewrite H in F. destruct F as [_ F]. congruence. }
  destruct (is_punct r) eqn:Epu.
  { exfalso. assert (r <> 0%Z) by (unfold is_punct in Epu; lia). eapply not_eof; [exact (scanPunctuator_safe r w i s1 ltac:(lia))|exact H|exact K]. }
  destruct (is_digit r || (r =? 45)%Z) eqn:Ed.
  { exfalso. assert (r <> 0%Z) by (unfold is_digit in Ed; lia). eapply not_eof; [exact (scanNumber_safe r i s1 ltac:(lia))|exact H|exact K]. }
  destruct (Z.eqb_spec r 35).
  { unfold bind, with_fuel in H. pose proof (scanComment_safe (fuel_of i) false i s1 ltac:(lia) ltac:(unfold fuel_of; lia)) as F. unfold safe in F.
    destruct (scanComment_loop (fuel_of i) false i s1) as [u s2| |]; try discriminate. eapply IH; [|exact H|exact K]. lia. }
  destruct (Z.eqb_spec r 34).
  { exfalso. assert (F : safe (bind readr (fun x => let '(r1, w1) := x in bind readr (fun y => let '(r2, w2) := y in
        if (r1 =? 34)%Z && (r2 =? 34)%Z then scanBlockString else bind (unread w2) (fun _ => bind (unread w1) (fun _ => scanString))))) i s1 (fun t s' => True /\ tkind t <> KEOF)).
    { sbind. swread r1 w1 s2. cbv beta iota. sbind. swread r2 w2 s3. cbv beta iota.
      destruct ((r1 =? 34)%Z && (r2 =? 34)%Z).
      - eapply safe_weaken; [apply scanBlockString_safe; lia|]. cbn beta. intros x s4 H4. tauto.
      - sbind. apply safe_unread; [lia|]. intros s4 H4 _. sbind. apply safe_unread; [lia|]. intros s5 H5 _.
        eapply safe_weaken; [apply scanString_safe; lia|]. cbn beta. intros x s6 H6. tauto. }
    eapply not_eof; [exact F|exact H|exact K]. }
  destruct (Z.eqb_spec r eof) as [Hr|Hr].
  - unfold bind, get, ret in H. injection H as <- <-. split; [reflexivity|intros N; eapply (significant_end i N _ _ _ _ _ _ Hp E Hr)].
  - unfold bind, get, ret in H. injection H as <- <-. discriminate.
Qed.

(** Without NUL, EOF is returned only at the end of the text. *)
Theorem C01_eof_is_the_end : forall i s t s', no_nul i -> (pos s <= List.length i)%nat ->
  scan i s = Ok t s' -> tkind t = KEOF -> pos s' = List.length i.
Proof. intros i s t s' N Hp H K. exact (proj2 (scan_eof i _ _ _ _ Hp H K) N). Qed.
Print Assumptions C01_eof_is_the_end.

(** So from then on every call returns EOF, at the same place. *)
Theorem C01_eof_for_ever : forall i s t s' n, no_nul i -> (pos s <= List.length i)%nat -> scan i s = Ok t s' -> tkind t = KEOF ->
  exists ts, scans n i s' = Ok ts s' /\ List.length ts = n /\ Forall (fun u => tkind u = KEOF /\ tlit u = [] /\ tline u = tline t /\ tcol u = tcol t) ts.
Proof.
  intros i s t s' n N Hp H K. pose proof (C01_eof_is_the_end _ _ _ _ N Hp H K) as E.
  pose proof (proj1 (scan_eof i _ _ _ _ Hp H K)) as T.
  clear H Hp. induction n as [|n (ts & I1 & I2 & I3)].
  - exists []. repeat split; constructor.
  - exists (t :: ts). cbn [scans]. rewrite (C01_after_end i s' E), I1, <- T. split; [reflexivity|]. split; [cbn; lia|]. constructor; [|exact I3]. rewrite T. cbn. auto.
Qed.
Print Assumptions C01_eof_for_ever.

(** A NUL between tokens is taken for the end of the text; calling Scan again goes on behind it. *)
Theorem C01_nul_refuted : exists i s t s' t' s'', (pos s <= List.length i)%nat /\ scan i s = Ok t s' /\ tkind t = KEOF /\ scan i s' = Ok t' s'' /\ tkind t' = KName.
Proof. exists (ascii_of_nat 0 :: B "b"), lex_init. eexists _, _, _, _. split; [cbn; lia|]. split; [vm_compute; reflexivity|]. split; [reflexivity|]. split; [vm_compute; reflexivity|reflexivity]. Qed.
Print Assumptions C01_nul_refuted.
Example C01_end_nonvacuous : exists ts last s', no_nul (B "{a} # b") /\ lex_all (B "{a} # b") = Ok (ts ++ [last]) s' /\ tkind last = KEOF /\ pos s' = 7.
Proof.
  eexists [_; _; _], _, _. split; [apply Forall_forall; intros b Hb; vm_compute in Hb; repeat (destruct Hb as [<-|Hb]; [vm_compute; discriminate|]); contradiction|].
  split; [vm_compute; reflexivity|]. split; reflexivity.
Qed.
