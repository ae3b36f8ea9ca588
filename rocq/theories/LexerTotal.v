(** * LexerTotal: every call of [scan] on every byte string returns, without panicking, and makes progress. *)
From Verif Require Import Base Utf8 Utf8Proofs Lexer.
From Coq Require Import ZifyBool ZifyNat ZifyN.
Local Open Scope lex_scope.

(** [safe m i s Q]: running [m] neither panics nor exhausts its fuel, and the result satisfies [Q]. *)
Definition safe {A} (m : M A) (i : bytes) (s : lst) (Q : A -> lst -> Prop) : Prop :=
  match m i s with Ok a s' => Q a s' | Panic => False | Fuel => False end.

Lemma safe_bind {A C} (m : M A) (k : A -> M C) i s Q :
  safe m i s (fun a s' => safe (k a) i s' Q) -> safe (bind m k) i s Q.
Proof. unfold safe, bind. destruct (m i s); auto. Qed.

Lemma safe_ret {A} (a : A) i s (Q : A -> lst -> Prop) : Q a s -> safe (ret a) i s Q.
Proof. exact (fun H => H). Qed.

Lemma safe_get i s (Q : lst -> lst -> Prop) : Q s s -> safe get i s Q.
Proof. exact (fun H => H). Qed.

Lemma safe_put s' i s (Q : unit -> lst -> Prop) : Q tt s' -> safe (put s') i s Q.
Proof. exact (fun H => H). Qed.

Lemma safe_weaken {A} (m : M A) i s (Q Q' : A -> lst -> Prop) :
  safe m i s Q -> (forall a s', Q a s' -> Q' a s') -> safe m i s Q'.
Proof. unfold safe. destruct (m i s); auto. Qed.

Lemma safe_with_fuel {A} (f : nat -> M A) i s Q :
  safe (f (fuel_of i)) i s Q -> safe (with_fuel f) i s Q.
Proof. exact (fun H => H). Qed.

Lemma safe_ok {A} (m : M A) i s Q : safe m i s Q -> exists a s', m i s = Ok a s' /\ Q a s'.
Proof. unfold safe. destruct (m i s); try tauto. eauto. Qed.

(** ** What one read of the input does, as a function of the bytes not yet read. *)
Definition next (p : bytes) : Z * nat * nat :=           (* rune, reported width, bytes consumed *)
  match p with
  | [] => (eof, 0, 0)
  | b :: t =>
      if zb b <? 128 then (zb b, 1, 1)
      else match t with
           | [] => (eof, 0, 1)
           | _ => let '(r, w) := decode_rune p in (r, w, w)
           end
  end.

Definition step (s : lst) (a : nat) : lst :=
  mkL (pos s + a) (if Nat.eqb a 0 then lpos s else lpos s + 1) (line s).

Lemma nth_error_skipn {A} (l : list A) n : nth_error l n = nth_error (skipn n l) 0.
Proof. revert n; induction l as [|x l IH]; destruct n; simpl; auto. rewrite IH. reflexivity. Qed.

Lemma skipn_S_cons {A} (l : list A) n x t : skipn n l = x :: t -> skipn (S n) l = t.
Proof.
  revert n; induction l as [|y l IH]; destruct n; simpl; intros H; try discriminate.
  - injection H as -> ->. reflexivity.
  - apply IH. exact H.
Qed.

Lemma readr_eq (i : bytes) s :
  (pos s <= List.length i)%nat ->
  readr i s = let '(r, w, a) := next (skipn (pos s) i) in Ok (r, w) (step s a).
Proof.
  intros Hp. unfold readr, bind, read, ret.
  rewrite nth_error_skipn.
  destruct (skipn (pos s) i) as [|b t] eqn:E; simpl nth_error; cbv iota beta.
  - unfold next, eof. cbn. unfold step. cbn. rewrite Nat.add_0_r. destruct s; reflexivity.
  - pose proof (f_equal (@List.length _) E) as HL. rewrite skipn_length in HL. simpl in HL.
    unfold next. rewrite Z.leb_antisym. destruct (zb b <? 128) eqn:Eb.
    + unfold step. simpl. reflexivity.
    + cbn [negb]. unfold readUnicode. cbn [pos line lpos]. cbv beta.
      destruct t as [|b2 t].
      * simpl in HL. match goal with |- context [Nat.leb ?a ?b] => destruct (Nat.leb_spec a b) end; [|lia].
        unfold step. simpl. reflexivity.
      * simpl in HL. match goal with |- context [Nat.leb ?a ?b] => destruct (Nat.leb_spec a b) end; [lia|].
        replace (pos s + 1) with (S (pos s)) by lia. rewrite E.
        destruct (decode_rune (b :: b2 :: t)) as [r w] eqn:Ed.
        pose proof (decode_width b (b2 :: t)) as Hw. rewrite Ed in Hw. simpl in Hw.
        unfold step. destruct (Nat.eqb_spec w 0); [lia|]. simpl.
        f_equal. f_equal; lia.
Qed.

Lemma next_facts p r w a : next p = (r, w, a) ->
  (w <= a <= List.length p)%nat /\ (r <> 0%Z -> (1 <= w)%nat /\ w = a) /\ (a = 0 -> p = [] /\ r = 0%Z /\ w = 0)
  /\ (0 <= r)%Z /\ (w = 0 -> r = 0%Z) /\ (1 <= w -> w = a).
Proof.
  unfold next, eof. destruct p as [|b t].
  - intros H; injection H as <- <- <-. simpl. repeat split; try lia.
  - pose proof (zb_range b). destruct (zb b <? 128) eqn:E.
    + intros H0; injection H0 as <- <- <-. simpl. repeat split; lia.
    + destruct t as [|b2 t].
      * intros H0; injection H0 as <- <- <-. simpl. repeat split; lia.
      * pose proof (decode_width b (b2 :: t)) as Hw.
        pose proof (decode_rune_ge b (b2 :: t)) as Hr.
        destruct (decode_rune (b :: b2 :: t)) as [r' w'] eqn:Ed. cbn [fst snd List.length] in *.
        assert (128 <= r')%Z by (apply Hr; lia).
        intros H1; injection H1 as <- <- <-. repeat split; try lia.
Qed.

(** The same, packaged for the [safe] proofs. *)
Lemma safe_readr i s (Q : Z * nat -> lst -> Prop) :
  (pos s <= List.length i)%nat ->
  (forall r w s', line s' = line s -> (pos s + w <= pos s' <= List.length i)%nat ->
     (r <> 0%Z -> (1 <= w)%nat /\ pos s' = (pos s + w)%nat) -> (0 <= r)%Z -> (w = 0 -> r = 0%Z) ->
     Q (r, w) s') ->
  safe readr i s Q.
Proof.
  intros Hp H. unfold safe. rewrite readr_eq by exact Hp.
  destruct (next (skipn (pos s) i)) as [[r w] a] eqn:E.
  apply next_facts in E as (Hwa & Hr & Ha & H0 & Hw0 & H1).
  rewrite skipn_length in Hwa.
  apply H; unfold step; cbn [pos line]; auto; try lia.
Qed.

Lemma safe_readr_weak i s (Q : Z * nat -> lst -> Prop) :
  (pos s <= List.length i)%nat ->
  (forall r w s', (pos s + w <= pos s' <= List.length i)%nat -> Q (r, w) s') ->
  safe readr i s Q.
Proof. intros Hp H. apply safe_readr; [exact Hp|]. intros r w s' _ H1 _ _ _. apply H. exact H1. Qed.

Lemma safe_unread w i s (Q : unit -> lst -> Prop) :
  (w <= pos s)%nat -> (forall s', pos s' = (pos s - w)%nat -> line s' = line s -> Q tt s') -> safe (unread w) i s Q.
Proof.
  intros H HQ. unfold safe, unread. destruct (Nat.ltb_spec (pos s) w); [lia|]. apply HQ; reflexivity.
Qed.

Lemma safe_slice a b i s (Q : bytes -> lst -> Prop) :
  (0 <= a <= b)%Z -> (b <= Z.of_nat (List.length i))%Z ->
  Q (firstn (Z.to_nat (b - a)) (skipn (Z.to_nat a) i)) s -> safe (slice a b) i s Q.
Proof.
  intros H1 H2 HQ. unfold safe, slice.
  replace ((0 <=? a) && (a <=? b) && (b <=? Z.of_nat (List.length i))) with true by lia. exact HQ.
Qed.

Lemma safe_newline i s (Q : unit -> lst -> Prop) :
  (forall s', pos s' = pos s -> Q tt s') -> safe newline i s Q.
Proof. intros H. unfold safe, newline. apply H. reflexivity. Qed.

Lemma safe_set_lpos n i s (Q : unit -> lst -> Prop) :
  (forall s', pos s' = pos s -> Q tt s') -> safe (set_lpos n) i s Q.
Proof. intros H. unfold safe, set_lpos. apply H. reflexivity. Qed.

Ltac sbind := apply safe_bind.
Ltac sread r w s' := apply safe_readr; [lia|]; intros r w s';
  let h := fresh "Rd" in intro h; let h := fresh "Rd" in intro h; let h := fresh "Rd" in intro h;
  let h := fresh "Rd" in intro h; let h := fresh "Rd" in intro h.

Ltac swread r w s' := apply safe_readr_weak; [lia|]; intros r w s'; let h := fresh "Rd" in intro h.

(** ** Each scanning function. *)
Lemma readNextSignificant_safe n b i s :
  (pos s <= List.length i)%nat -> (List.length i - pos s < n)%nat ->
  safe (readNextSignificant_loop n b) i s (fun x s' =>
    let '(r, w) := x in
    (pos s + w <= pos s' <= List.length i)%nat /\ (r <> 0%Z -> (1 <= w)%nat) /\ (0 <= r)%Z).
Proof.
  revert b s; induction n as [|n IH]; intros b s Hp Hn; [lia|].
  cbn [readNextSignificant_loop]. sbind. sread r w s'. cbv beta iota.
  destruct (Z.eqb_spec r c_cr) as [->|Hcr].
  { sbind. apply safe_newline. intros s2 Hs2. unfold c_cr in *.
    eapply safe_weaken; [apply IH; lia|]. intros [r' w'] s3; cbn beta iota. lia. }
  destruct (Z.eqb_spec r c_lf) as [->|Hlf].
  { unfold c_lf in *. sbind. destruct b.
    - apply safe_ret. eapply safe_weaken; [apply IH; lia|]. intros [r' w'] s3; cbn beta iota. lia.
    - apply safe_newline. intros s2 Hs2. eapply safe_weaken; [apply IH; lia|].
      intros [r' w'] s3; cbn beta iota. lia. }
  destruct ((r =? c_tab) || (r =? c_ws) || (r =? c_com) || (r =? c_bom)) eqn:E.
  { assert (r <> 0%Z) by (unfold c_tab, c_ws, c_com, c_bom in E; lia).
    eapply safe_weaken; [apply IH; lia|]. intros [r' w'] s3; cbn beta iota. lia. }
  apply safe_ret. repeat split; try lia.
Qed.

Lemma scanName_safe i s :
  (1 <= pos s <= List.length i)%nat ->
  safe scanName i s (fun t s' => (pos s <= pos s' <= List.length i)%nat /\ tkind t = KName).
Proof.
  intros Hp. unfold scanName. sbind. apply safe_get. sbind. apply safe_with_fuel.
  assert (L : forall n s1, (pos s1 <= List.length i)%nat -> (List.length i - pos s1 < n)%nat ->
     safe (scanName_loop n) i s1 (fun _ s' => (pos s1 <= pos s' <= List.length i)%nat)).
  { induction n as [|n IH]; intros s1 H1 Hn; [lia|]. cbn [scanName_loop].
    sbind. sread r w s'. cbv beta iota.
    destruct (is_name_cont r) eqn:E.
    { assert (r <> 0%Z) by (unfold is_name_cont, is_digit, is_upper, is_lower in E; lia).
      eapply safe_weaken; [apply IH; lia|]. cbn beta. intros _ s2. lia. }
    destruct (r =? eof); [apply safe_ret; lia|].
    apply safe_unread; [lia|]. intros s2 Hs2 _. lia. }
  eapply safe_weaken; [apply L; unfold fuel_of; lia|]. cbn beta. intros _ s1 H1.
  sbind. apply safe_get. sbind. apply safe_slice; try lia. apply safe_ret. cbn. split; [lia|reflexivity].
Qed.

Lemma scanPunctuator_safe r w i s :
  (w <= pos s <= List.length i)%nat ->
  safe (scanPunctuator r w) i s (fun t s' => (pos s <= pos s' <= List.length i)%nat /\ tkind t <> KEOF).
Proof.
  intros Hp. unfold scanPunctuator. sbind. apply safe_get.
  destruct (r =? 46).
  - sbind. swread r2 w2 s2. cbv beta iota. sbind. swread r3 w3 s3. cbv beta iota.
    destruct (negb (r2 =? 46) || negb (r3 =? 46)); apply safe_ret; cbn; split; try lia; discriminate.
  - sbind. apply safe_slice; try lia. apply safe_ret. cbn. split; [lia|discriminate].
Qed.

Lemma readDigits_safe r i s :
  (pos s <= List.length i)%nat ->
  safe (readDigits r) i s (fun x s' => (pos s <= pos s' <= List.length i)%nat /\
    match x with inl _ => True | inr (r', w') => (pos s + w' <= pos s')%nat end).
Proof.
  intros Hp. unfold readDigits. destruct (negb (is_digit r)); [apply safe_ret; lia|].
  sbind. apply safe_with_fuel.
  assert (L : forall n s1, (pos s1 <= List.length i)%nat -> (List.length i - pos s1 < n)%nat ->
     safe (readDigits_loop n) i s1 (fun x s' => let '(r', w') := x in
       (pos s1 + w' <= pos s' <= List.length i)%nat)).
  { induction n as [|n IH]; intros s1 H1 Hn; [lia|]. cbn [readDigits_loop].
    sbind. sread r' w s'. cbv beta iota.
    destruct (is_digit r') eqn:E.
    { assert (r' <> 0%Z) by (unfold is_digit in E; lia).
      eapply safe_weaken; [apply IH; lia|]. intros [r2 w2] s2; cbn beta iota. lia. }
    apply safe_ret. lia. }
  eapply safe_weaken; [apply L; unfold fuel_of; lia|]. intros [r2 w2] s2; cbn beta iota. intros H.
  apply safe_ret. cbn beta iota. lia.
Qed.

Lemma scanNumber_safe r i s :
  (1 <= pos s <= List.length i)%nat ->
  safe (scanNumber r) i s (fun t s' => (pos s <= pos s' <= List.length i)%nat /\ tkind t <> KEOF).
Proof.
  intros Hp. unfold scanNumber. sbind. apply safe_get. cbv zeta. sbind.
  apply safe_weaken with (Q := fun x s' => (pos s <= pos s' <= List.length i)%nat /\
    match x with inl _ => True | inr (r', w') => (pos s + w' <= pos s')%nat end).
  { unfold num_intpart. sbind.
    apply safe_weaken with (Q := fun _ s' => (pos s <= pos s' <= List.length i)%nat).
    { destruct (r =? 45); [|apply safe_ret; lia]. sbind. swread r1 w1 s1. cbv beta iota. apply safe_ret. lia. }
    cbn beta. intros r1 s1 H1. destruct (r1 =? 48).
    - sbind. swread r2 w2 s2. cbv beta iota. destruct (is_digit r2); apply safe_ret; cbn beta iota; lia.
    - eapply safe_weaken; [apply readDigits_safe; lia|]. intros [e|[r2 w2]] s2; cbn beta iota; lia. }
  intros [e|[r1 w1]] s1 H1; [apply safe_ret; cbn; split; [lia|discriminate]|].
  sbind.
  apply safe_weaken with (Q := fun x s' => (pos s <= pos s' <= List.length i)%nat /\
    match x with inl _ => True | inr ((r', w'), _) => (pos s + w' <= pos s')%nat end).
  { unfold num_fracpart. destruct (r1 =? 46); [|apply safe_ret; cbn; lia].
    sbind. swread r2 w2 s2. cbv beta iota. sbind.
    eapply safe_weaken; [apply readDigits_safe; lia|]. intros [e|[r3 w3]] s3 H3; apply safe_ret; cbn beta iota; lia. }
  intros [e|[[r2 w2] fl]] s2 H2; [apply safe_ret; cbn; split; [lia|discriminate]|].
  sbind.
  apply safe_weaken with (Q := fun x s' => (pos s <= pos s' <= List.length i)%nat /\
    match x with inl _ => True | inr ((r', w'), _) => (pos s + w' <= pos s')%nat end).
  { unfold num_exppart. destruct ((r2 =? 101) || (r2 =? 69)); [|apply safe_ret; cbn; lia].
    sbind. swread r3 w3 s3. cbv beta iota. sbind.
    apply safe_weaken with (Q := fun _ s' => (pos s <= pos s' <= List.length i)%nat).
    { destruct ((r3 =? 43) || (r3 =? 45)); [|apply safe_ret; lia].
      sbind. swread r4 w4 s4. cbv beta iota. apply safe_ret. lia. }
    cbn beta. intros r4 s4 H4. sbind.
    eapply safe_weaken; [apply readDigits_safe; lia|]. intros [e|[r5 w5]] s5 H5; apply safe_ret; cbn beta iota; lia. }
  intros [e|[[r3 w3] fl3]] s3 H3; [apply safe_ret; cbn; split; [lia|discriminate]|].
  sbind.
  apply safe_weaken with (Q := fun _ s' => (pos s <= pos s' <= List.length i)%nat).
  { destruct (r3 =? eof); [apply safe_ret; lia|]. apply safe_unread; [lia|]. intros s4 H4 _. lia. }
  cbn beta. intros _ s4 H4. sbind. apply safe_get. sbind. apply safe_slice; try lia.
  apply safe_ret. cbn. split; [lia|]. destruct fl3; discriminate.
Qed.

Lemma scanString_pass1_safe n b i s :
  (pos s <= List.length i)%nat -> (List.length i - pos s < n)%nat ->
  safe (scanString_pass1 n b) i s (fun x s' => (pos s <= pos s' <= List.length i)%nat /\
    match x with inl _ => True | inr _ => (pos s + 1 <= pos s')%nat end).
Proof.
  revert b s; induction n as [|n IH]; intros b s Hp Hn; [lia|].
  cbn [scanString_pass1]. sbind. sread r w s'. cbv beta iota.
  destruct (Z.eqb_spec r 34). { apply safe_ret. cbn. lia. }
  destruct ((r <? 32) && negb (r =? c_tab)) eqn:Ec. { apply safe_ret. cbn. lia. }
  assert (r <> 0%Z) by (unfold c_tab in Ec; lia).
  destruct (r =? c_bsl).
  - sbind. swread r2 w2 s2. cbv beta iota. destruct (r2 =? 117).
    + sbind. swread r3 w3 s3. sbind. swread r4 w4 s4. sbind. swread r5 w5 s5. sbind. swread r6 w6 s6.
      eapply safe_weaken; [apply IH; lia|]. intros [x|x] s7; cbn beta iota; lia.
    + eapply safe_weaken; [apply IH; lia|]. intros [x|x] s7; cbn beta iota; lia.
  - eapply safe_weaken; [apply IH; lia|]. intros [x|x] s7; cbn beta iota; lia.
Qed.

Lemma escapedChar_safe i s :
  (pos s <= List.length i)%nat ->
  safe escapedChar i s (fun _ s' => (pos s <= pos s' <= List.length i)%nat).
Proof.
  intros Hp. unfold escapedChar. sbind. swread r w s'. cbv beta iota.
  repeat match goal with
  | |- safe (if ?c then ret _ else _) _ _ _ => destruct c; [apply safe_ret; lia|]
  end.
  destruct (r =? 117); [|apply safe_ret; lia].
  sbind. swread r1 w1 s1. cbv beta iota. sbind. swread r2 w2 s2. cbv beta iota.
  sbind. swread r3 w3 s3. cbv beta iota. sbind. swread r4 w4 s4. cbv beta iota zeta.
  destruct (_ <? 0); apply safe_ret; lia.
Qed.

Lemma scanString_pass2_safe n bs i s :
  (pos s <= List.length i)%nat -> (List.length i - pos s < n)%nat ->
  safe (scanString_pass2 n bs) i s (fun _ s' => (pos s <= pos s' <= List.length i)%nat).
Proof.
  revert bs s; induction n as [|n IH]; intros bs s Hp Hn; [lia|].
  cbn [scanString_pass2]. sbind. sread r w s'. cbv beta iota.
  destruct ((r =? 34) || (r =? eof)) eqn:Ee. { apply safe_ret. lia. }
  assert (r <> 0%Z) by (unfold eof in Ee; lia).
  destruct (r =? c_bsl).
  - sbind. eapply safe_weaken; [apply escapedChar_safe; lia|]. cbn beta. intros [e|r'] s2 H2.
    + apply safe_ret. lia.
    + eapply safe_weaken; [apply IH; lia|]. cbn beta. intros; lia.
  - eapply safe_weaken; [apply IH; lia|]. cbn beta. intros; lia.
Qed.

Lemma scanString_safe i s :
  (pos s <= List.length i)%nat ->
  safe scanString i s (fun t s' => (pos s <= pos s' <= List.length i)%nat /\ tkind t <> KEOF).
Proof.
  intros Hp. unfold scanString. sbind. apply safe_get. cbv zeta. sbind. apply safe_with_fuel.
  eapply safe_weaken; [apply scanString_pass1_safe; unfold fuel_of; lia|].
  cbn beta. intros [r|[|]] s1 H1.
  - apply safe_ret. cbn. split; [lia|discriminate].
  - sbind. apply safe_put. sbind. apply safe_with_fuel.
    eapply safe_weaken; [apply scanString_pass2_safe; unfold fuel_of; lia|].
    cbn beta. intros [e|bs] s2 H2; apply safe_ret; cbn; (split; [lia|discriminate]).
  - sbind. apply safe_get. sbind. apply safe_slice; try lia. apply safe_ret. cbn. split; [lia|discriminate].
Qed.

Lemma isTripQuotes_safe i s :
  (pos s <= List.length i)%nat ->
  safe isTripQuotes i s (fun t s' => (pos s <= pos s' <= List.length i)%nat /\ (t = true -> (pos s + 2 <= pos s')%nat)).
Proof.
  intros Hp. unfold isTripQuotes. sbind. sread r1 w1 s1. cbv beta iota. sbind. sread r2 w2 s2. cbv beta iota.
  destruct (Z.eqb_spec r1 34); destruct (Z.eqb_spec r2 34); cbn [andb]; try (apply safe_ret; split; lia).
  all: sbind;
    apply safe_weaken with (Q := fun _ s' => (pos s' <= List.length i /\ pos s + w1 <= pos s')%nat /\
       (r2 = 0%Z -> True));
    [destruct (negb (r1 =? eof)); [apply safe_unread; [lia|]; intros; lia | apply safe_ret; lia]|].
  all: cbn beta; intros _ s3 H3; sbind;
    apply safe_weaken with (Q := fun _ s' => (pos s <= pos s' <= List.length i)%nat);
    [destruct (negb (r2 =? eof)); [apply safe_unread; [lia|]; intros; lia | apply safe_ret; lia]|].
  all: cbn beta; intros _ s4 H4; apply safe_ret; (split; [lia|discriminate]).
Qed.

Lemma scanBlock_pass1_safe n he hc i s :
  (pos s <= List.length i)%nat -> (List.length i - pos s < n)%nat ->
  safe (scanBlock_pass1 n he hc) i s (fun x s' => (pos s <= pos s' <= List.length i)%nat /\
    match x with inl _ => True | inr _ => (pos s + 3 <= pos s')%nat end).
Proof.
  revert he hc s; induction n as [|n IH]; intros he hc s Hp Hn; [lia|].
  cbn [scanBlock_pass1]. sbind. sread r w s'. cbv beta iota.
  assert (Rec : forall he hc s2, r <> 0%Z -> (pos s' <= pos s2 <= List.length i)%nat ->
    safe (scanBlock_pass1 n he hc) i s2 (fun x s' => (pos s <= pos s' <= List.length i)%nat /\
      match x with inl _ => True | inr _ => (pos s + 3 <= pos s')%nat end)).
  { intros he2 hc2 s2 Hr H2. eapply safe_weaken; [apply IH; lia|].
    intros [x|x] s3; cbn beta iota; lia. }
  destruct (Z.eqb_spec r c_bsl).
  { assert (r <> 0%Z) by (unfold c_bsl in *; lia).
    sbind. swread r2 w2 s2. cbv beta iota. destruct (r2 =? 34); [|apply Rec; [assumption|lia]].
    sbind. eapply safe_weaken; [apply isTripQuotes_safe; lia|]. cbn beta. intros t s3 [H3 _].
    apply Rec; [assumption|lia]. }
  destruct (Z.eqb_spec r c_cr). { apply Rec; [unfold c_cr in *; lia|lia]. }
  destruct (Z.eqb_spec r eof). { apply safe_ret. cbn. lia. }
  match goal with |- safe (if ?c then _ else _) _ _ _ => destruct c end. { apply safe_ret. cbn. lia. }
  destruct (Z.eqb_spec r 34).
  { sbind. eapply safe_weaken; [apply isTripQuotes_safe; lia|]. cbn beta. intros t s3 [H3 H3'].
    destruct t; [apply safe_ret; cbn; lia|]. apply Rec; [assumption|lia]. }
  apply Rec; [assumption|lia].
Qed.

Lemma scanBlock_pass1_end n he hc i u x s1 :
  (pos u <= List.length i)%nat ->
  scanBlock_pass1 n he hc i u = Ok (inr x) s1 -> (pos u + 3 <= pos s1 <= List.length i)%nat.
Proof.
  revert he hc u; induction n as [|m IHm]; intros e c u Hu; [discriminate|].
  cbn [scanBlock_pass1]. unfold bind at 1. rewrite readr_eq by exact Hu.
  destruct (next (skipn (pos u) i)) as [[r w] a] eqn:En.
  pose proof (next_facts _ _ _ _ En) as (Hwa & _). rewrite skipn_length in Hwa.
  assert (Hv : (pos u <= pos (step u a) <= List.length i)%nat) by (unfold step; cbn; lia).
  assert (Go : forall e c v, (pos (step u a) <= pos v <= List.length i)%nat ->
    scanBlock_pass1 m e c i v = Ok (inr x) s1 -> (pos u + 3 <= pos s1 <= List.length i)%nat).
  { intros e2 c2 v H1 H2. specialize (IHm _ _ v ltac:(lia) H2). lia. }
  destruct (Z.eqb_spec r c_bsl).
  { unfold bind at 1. rewrite readr_eq by lia.
    destruct (next (skipn (pos (step u a)) i)) as [[r2 w2] a2] eqn:En2.
    pose proof (next_facts _ _ _ _ En2) as (Hwa2 & _). rewrite skipn_length in Hwa2.
    assert (Hv2 : (pos (step u a) <= pos (step (step u a) a2) <= List.length i)%nat) by (unfold step in *; cbn in *; lia).
    destruct (r2 =? 34).
    - unfold bind at 1. pose proof (isTripQuotes_safe i (step (step u a) a2) ltac:(lia)) as HT. unfold safe in HT.
      destruct (isTripQuotes i (step (step u a) a2)) as [t s3| |]; try contradiction.
      apply Go. lia.
    - apply Go. lia. }
  destruct (Z.eqb_spec r c_cr). { apply Go. lia. }
  destruct (Z.eqb_spec r eof). { discriminate. }
  match goal with |- (if ?c then _ else _) _ _ = _ -> _ => destruct c end. { discriminate. }
  destruct (Z.eqb_spec r 34) as [E34|E34].
  { unfold bind at 1. pose proof (isTripQuotes_safe i (step u a) ltac:(lia)) as HT. unfold safe in HT.
    destruct (isTripQuotes i (step u a)) as [t s3| |]; try contradiction. destruct t.
    - intros H; injection H as _ <-.
      apply next_facts in En as (_ & Hr & _). unfold step in *; cbn [pos] in *. lia.
    - apply Go. lia. }
  apply Go. lia.
Qed.

(** The second pass retraces the first: when the first finds the closing quotes, the second ends at the same
    place with a raw value, and in particular its look-ahead [input[pos+1]] is in range. *)
Lemma scanBlock_pass2_follows n he hc i s x s1 :
  (pos s <= List.length i)%nat ->
  scanBlock_pass1 n he hc i s = Ok (inr x) s1 ->
  forall buf, exists raw, scanBlock_pass2 n buf i s = Ok (inr (buf ++ raw)) s1.
Proof.
  revert he hc s; induction n as [|n IH]; intros he hc s Hp; [discriminate|].
  cbn [scanBlock_pass1 scanBlock_pass2]. unfold bind at 1.
  intros H buf. unfold bind at 1.
  rewrite readr_eq in * by exact Hp.
  destruct (next (skipn (pos s) i)) as [[r w] a] eqn:En.
  pose proof (next_facts _ _ _ _ En) as (Hwa & Hr & Ha & H0 & _ & _). rewrite skipn_length in Hwa.
  set (s' := step s a) in *. assert (Hs' : (pos s <= pos s' <= List.length i)%nat) by (unfold s', step; cbn; lia). clearbody s'.
  assert (Rec : forall he hc s2 buf2, (pos s2 <= List.length i)%nat ->
     scanBlock_pass1 n he hc i s2 = Ok (inr x) s1 ->
     exists raw, scanBlock_pass2 n (buf ++ buf2) i s2 = Ok (inr (buf ++ raw)) s1).
  { intros he2 hc2 s2 buf2 H2 Hx. destruct (IH _ _ _ H2 Hx (buf ++ buf2)) as [raw Hraw].
    exists (buf2 ++ raw). rewrite app_assoc. exact Hraw. }
  destruct (Z.eqb_spec r c_bsl) as [->|Hbsl].
  { change (c_bsl =? c_lf) with false. change (c_bsl =? c_cr) with false. change (c_bsl =? c_bsl) with true.
    cbv iota in *. unfold bind in H at 1. unfold bind at 1.
    rewrite readr_eq in * by lia.
    destruct (next (skipn (pos s') i)) as [[r2 w2] a2] eqn:En2.
    pose proof (next_facts _ _ _ _ En2) as (Hwa2 & _). rewrite skipn_length in Hwa2.
    set (s2 := step s' a2) in *. assert (Hs2 : (pos s2 <= List.length i)%nat) by (unfold s2, step; cbn; lia). clearbody s2.
    destruct (r2 =? 34).
    - unfold bind in H at 1. unfold bind at 1.
      pose proof (isTripQuotes_safe i s2 Hs2) as HT. unfold safe in HT.
      destruct (isTripQuotes i s2) as [t s3| |]; try contradiction.
      destruct t; eapply Rec; try exact H; lia.
    - eapply Rec; [lia|exact H]. }
  destruct (Z.eqb_spec r c_cr) as [->|Hcr].
  { change (c_cr =? c_lf) with false. cbv iota in *. unfold bind, input, get.
    assert (Hb : (pos s' + 3 <= pos s1 <= List.length i)%nat).
    { apply (scanBlock_pass1_end n he true i s' x s1); [lia|exact H]. }
    destruct (nth_error i (pos s' + 1)) as [b|] eqn:Eb.
    2:{ apply nth_error_None in Eb. lia. }
    destruct (zb b =? 10).
    - destruct (Rec _ _ s' [] ltac:(lia) H) as [raw Hraw]. rewrite app_nil_r in Hraw. exists raw. exact Hraw.
    - eapply Rec; [lia|exact H]. }
  destruct (Z.eqb_spec r eof) as [->|Heof]; [discriminate|].
  match type of H with (if ?c then _ else _) _ _ = _ => destruct c eqn:Ec end; [discriminate|].
  destruct (Z.eqb_spec r c_lf) as [->|Hlf].
  { change (c_lf =? 34) with false in H. eapply Rec; [|exact H]; lia. }
  destruct (Z.eqb_spec r 34) as [->|H34].
  - unfold bind in H at 1. unfold bind at 1.
    pose proof (isTripQuotes_safe i s' ltac:(lia)) as HT. unfold safe in HT.
    destruct (isTripQuotes i s') as [t s3| |]; try contradiction. destruct t.
    + injection H as _ <-. exists []. rewrite app_nil_r. reflexivity.
    + eapply Rec; [lia|exact H].
  - unfold bind, ret. eapply Rec; [|exact H]; lia.
Qed.

Lemma scanBlockString_safe i s :
  (pos s <= List.length i)%nat ->
  safe scanBlockString i s (fun t s' => (pos s <= pos s' <= List.length i)%nat /\ tkind t <> KEOF).
Proof.
  intros Hp. unfold scanBlockString. sbind. apply safe_get. cbv zeta. sbind. apply safe_with_fuel.
  pose proof (scanBlock_pass1_safe (fuel_of i) false false i s Hp ltac:(unfold fuel_of; lia)) as H1.
  unfold safe in *. destruct (scanBlock_pass1 (fuel_of i) false false i s) as [x s1| |] eqn:E1; try contradiction.
  destruct x as [e|[he hc]].
  - cbn. split; [lia|discriminate].
  - destruct (negb hc && negb he).
    + apply safe_bind. apply safe_get. apply safe_bind. apply safe_slice; try lia.
      apply safe_bind. unfold safe, blockStringLiteral, ret. cbn. split; [lia|discriminate].
    + apply safe_bind. apply safe_put. apply safe_bind. unfold safe at 1, with_fuel.
      destruct (scanBlock_pass2_follows _ _ _ _ _ _ _ Hp E1 []) as [raw Hraw]. rewrite Hraw.
      unfold safe, bind, blockStringLiteral, ret. cbn. split; [lia|discriminate].
Qed.

Lemma scanComment_safe n b i s :
  (pos s <= List.length i)%nat -> (List.length i - pos s < n)%nat ->
  safe (scanComment_loop n b) i s (fun _ s' => (pos s <= pos s' <= List.length i)%nat).
Proof.
  revert b s; induction n as [|n IH]; intros b s Hp Hn; [lia|].
  cbn [scanComment_loop]. sbind. sread r w s'. cbv beta iota.
  destruct (Z.eqb_spec r eof). { apply safe_ret. lia. }
  unfold eof in *.
  destruct (b && (r =? c_lf)). { apply safe_set_lpos. intros; lia. }
  destruct (b && negb (r =? c_lf)). { apply safe_unread; [lia|]. intros; lia. }
  destruct (r =? c_cr). { sbind. apply safe_newline. intros s2 H2. eapply safe_weaken; [apply IH; lia|]. cbn beta; intros; lia. }
  destruct (r =? c_lf). { apply safe_newline. intros; lia. }
  eapply safe_weaken; [apply IH; lia|]. cbn beta; intros; lia.
Qed.

Lemma scan_loop_safe n i s :
  (pos s <= List.length i)%nat -> (List.length i - pos s < n)%nat ->
  safe (scan_loop n) i s (fun t s' => (pos s <= pos s' <= List.length i)%nat /\
    (tkind t <> KEOF -> (pos s < pos s')%nat)).
Proof.
  revert s; induction n as [|n IH]; intros s Hp Hn; [lia|].
  cbn [scan_loop]. sbind. unfold readNextSignificant. apply safe_with_fuel.
  eapply safe_weaken; [apply readNextSignificant_safe; unfold fuel_of; lia|].
  intros [r w] s1; cbn beta iota. intros H1.
  destruct (is_name_start r) eqn:En.
  { assert (r <> 0%Z) by (unfold is_name_start, is_upper, is_lower in En; lia).
    eapply safe_weaken; [apply scanName_safe; lia|]. cbn beta. intros t s2 H2. lia. }
  destruct (is_punct r) eqn:Epu.
  { assert (r <> 0%Z) by (unfold is_punct in Epu; lia).
    eapply safe_weaken; [apply scanPunctuator_safe; lia|]. cbn beta. intros t s2 H2. lia. }
  destruct (is_digit r || (r =? 45)) eqn:Ed.
  { assert (r <> 0%Z) by (unfold is_digit in Ed; lia).
    eapply safe_weaken; [apply scanNumber_safe; lia|]. cbn beta. intros t s2 H2. lia. }
  destruct (Z.eqb_spec r 35).
  { sbind. apply safe_with_fuel.
    eapply safe_weaken; [apply scanComment_safe; unfold fuel_of; lia|]. cbn beta. intros _ s2 H2.
    eapply safe_weaken; [apply IH; lia|]. cbn beta. intros t s3 H3. lia. }
  destruct (Z.eqb_spec r 34).
  { sbind. swread r1 w1 s2. cbv beta iota. sbind. swread r2 w2 s3. cbv beta iota.
    destruct ((r1 =? 34) && (r2 =? 34)).
    - eapply safe_weaken; [apply scanBlockString_safe; lia|]. cbn beta. intros t s4 H4. lia.
    - sbind. apply safe_unread; [lia|]. intros s4 H4 _. sbind. apply safe_unread; [lia|]. intros s5 H5 _.
      eapply safe_weaken; [apply scanString_safe; lia|]. cbn beta. intros t s6 H6. lia. }
  destruct (Z.eqb_spec r eof).
  { sbind. apply safe_get. apply safe_ret. cbn. split; [lia|congruence]. }
  sbind. apply safe_get. apply safe_ret. cbn. unfold eof in *. split; [lia|]. lia.
Qed.

Lemma scan_total i s :
  (pos s <= List.length i)%nat ->
  exists t s', scan i s = Ok t s' /\ (pos s <= pos s' <= List.length i)%nat /\
    (tkind t <> KEOF -> (pos s < pos s')%nat).
Proof.
  intros Hp. pose proof (scan_loop_safe (fuel_of i) i s Hp ltac:(unfold fuel_of; lia)) as H.
  apply safe_ok in H as (t & s' & E & H). exists t, s'. split; [exact E|]. exact H.
Qed.

(** Any number of successive calls of [Scan]. *)
Fixpoint scans (n : nat) (i : bytes) (s : lst) : outcome (list token) :=
  match n with
  | O => Ok [] s
  | S m => match scan i s with
           | Ok t s' => match scans m i s' with Ok ts s'' => Ok (t :: ts) s'' | Panic => Panic | Fuel => Fuel end
           | Panic => Panic | Fuel => Fuel
           end
  end.

Lemma scans_total n i s :
  (pos s <= List.length i)%nat ->
  exists ts s', scans n i s = Ok ts s' /\ List.length ts = n /\ (pos s' <= List.length i)%nat
    /\ (pos s + List.length (filter (fun t => negb (kind_eqb (tkind t) KEOF)) ts) <= pos s')%nat.
Proof.
  revert s; induction n as [|n IH]; intros s Hp.
  - exists [], s. cbn. repeat split; lia.
  - destruct (scan_total i s Hp) as (t & s1 & E & Hs1 & Hprog). cbn [scans]. rewrite E.
    destruct (IH s1 ltac:(lia)) as (ts & s2 & E2 & HL & Hp2 & Hf). rewrite E2.
    exists (t :: ts), s2. cbn [List.length filter]. repeat split; try lia.
    destruct (kind_eqb (tkind t) KEOF) eqn:Ek; cbn [negb List.length]; [lia|].
    assert (tkind t <> KEOF) by (intros Hk; rewrite Hk in Ek; discriminate). specialize (Hprog H). lia.
Qed.

Lemma lex_loop_total n i s :
  (pos s <= List.length i)%nat -> (List.length i - pos s < n)%nat ->
  exists ts last s', lex_loop n i s = Ok (ts ++ [last]) s' /\ is_last last = true
    /\ Forall (fun t => is_last t = false) ts /\ (List.length ts <= List.length i - pos s)%nat.
Proof.
  revert s; induction n as [|n IH]; intros s Hp Hn; [lia|].
  destruct (scan_total i s Hp) as (t & s1 & E & Hs1 & Hprog). cbn [lex_loop]. rewrite E.
  destruct (is_last t) eqn:El.
  - exists [], t, s1. cbn. repeat split; auto. lia.
  - assert (tkind t <> KEOF) by (unfold is_last in El; destruct (tkind t); discriminate).
    specialize (Hprog H).
    destruct (IH s1 ltac:(lia) ltac:(lia)) as (ts & last & s2 & E2 & Hl & Hf & HL). rewrite E2.
    exists (t :: ts), last, s2. repeat split; auto. cbn. lia.
Qed.

Lemma lex_all_total i :
  exists ts last s', lex_all i = Ok (ts ++ [last]) s' /\ is_last last = true
    /\ Forall (fun t => is_last t = false) ts /\ (List.length ts <= List.length i)%nat.
Proof.
  destruct (lex_loop_total (fuel_of i) i lex_init) as (ts & l & s & H1 & H2 & H3 & H4).
  { cbn. lia. } { unfold fuel_of. cbn. lia. }
  exists ts, l, s. cbn [pos lex_init] in H4. repeat split; auto. lia.
Qed.
