(** * NameTokens: what the Name tokens of any input (valid UTF-8 or not) look like. *)
From Verif Require Import Base Utf8 Lexer LexSpec LexAgree AST Parser Grammar GrammarProps PropParse ParsedNames SchemaSpec.

(** What a Name token of the input [i] can hold: a piece of the input that is a name; or a name and one byte of junk,
    which is a NUL byte, or a byte that is not ASCII and with which the input ends (a lexer quirk: [eof] is the NUL rune,
    and a multi-byte rune whose first byte ends the input is read as [eof], which stops the name without giving the byte
    back). *)
Definition name_in (i n : bytes) : Prop := exists q r, i = q ++ n ++ r /\
  (proper_name n \/ exists p b, n = p ++ [b] /\ proper_name p /\ (zb b = 0%Z \/ (128 <= zb b)%Z /\ r = [])).

Definition namechar (b : byte) : Prop := letter (zb b) \/ digit (zb b).
Lemma skipn_nth {A} (i : list A) p b : nth_error i p = Some b -> skipn p i = b :: skipn (S p) i.
Proof. revert i; induction p as [|p IH]; intros [|x i] H; try discriminate; [cbn in *; congruence|]. exact (IH i H). Qed.
Ltac zr := idtac.
Lemma decode2_big z t lo hi : (194 <= z)%Z -> (128 <= lo)%Z -> (128 <= fst (decode2 z t lo hi))%Z.
Proof. intros H L. unfold decode2, in_range. destruct t as [|b1 t]; [cbn; unfold rune_error; lia|]. destruct (_ && _) eqn:E; cbn [fst]; unfold rune_error; zr; lia. Qed.
Lemma decode3_big z t lo hi : (224 <= z)%Z -> (128 <= lo)%Z -> (z = 224 -> 160 <= lo)%Z -> (128 <= fst (decode3 z t lo hi))%Z.
Proof. intros H L K. unfold decode3, in_range. destruct t as [|b1 [|b2 t]]; [cbn; unfold rune_error; lia..|]. destruct (_ && _ && _) eqn:E; cbn [fst]; unfold rune_error; zr; lia. Qed.
Lemma decode4_big z t lo hi : (240 <= z)%Z -> (128 <= lo)%Z -> (z = 240 -> 144 <= lo)%Z -> (128 <= fst (decode4 z t lo hi))%Z.
Proof. intros H L K. unfold decode4, in_range. destruct t as [|b1 [|b2 [|b3 t]]]; [cbn; unfold rune_error; lia..|]. destruct (_ && _ && _ && _) eqn:E; cbn [fst]; unfold rune_error; zr; lia. Qed.
Lemma decode_big b t : (128 <= zb b)%Z -> (128 <= fst (decode_rune (b :: t)))%Z.
Proof.
  intros H. unfold decode_rune. cbv zeta. generalize dependent (zb b). intros z H.
  destruct (z <? 128)%Z eqn:E0; [exact H|]. destruct (z <? 194)%Z eqn:E1; [cbn; unfold rune_error; lia|].
  destruct (z <? 224)%Z eqn:E2; [apply decode2_big; lia|]. destruct (z =? 224)%Z eqn:E3; [apply decode3_big; lia|]. destruct (z =? 237)%Z eqn:E4; [apply decode3_big; lia|].
  destruct (z <? 240)%Z eqn:E5; [apply decode3_big; lia|]. destruct (z =? 240)%Z eqn:E6; [apply decode4_big; lia|]. destruct (z <? 244)%Z eqn:E7; [apply decode4_big; lia|].
  destruct (z =? 244)%Z eqn:E8; [apply decode4_big; lia|]. cbn; unfold rune_error; lia.
Qed.

(** One reading step: the rune is an ASCII byte of the input, or [eof] at its end, or something from beyond ASCII. *)
Lemma readr_cases i s r w s1 : readr i s = Ok (r, w) s1 ->
  (exists b rest, skipn (pos s) i = b :: rest /\ r = zb b /\ (r < 128)%Z /\ w = 1 /\ pos s1 = S (pos s)) \/
  (skipn (pos s) i = [] /\ r = eof /\ w = 0 /\ pos s1 = pos s) \/
  (exists b, skipn (pos s) i = [b] /\ (128 <= zb b)%Z /\ r = eof /\ w = 0 /\ pos s1 = S (pos s)) \/
  (exists b rest, skipn (pos s) i = b :: rest /\ (128 <= r)%Z /\ pos s1 = pos s + w).
Proof.
  unfold readr, bind, read. destruct (nth_error i (pos s)) as [b|] eqn:En.
  - pose proof (skipn_nth _ _ _ En) as Hs. destruct (128 <=? zb b)%Z eqn:C.
    + apply Z.leb_le in C. unfold readUnicode. cbn [pos]. destruct (Nat.leb (List.length i) (pos s + 1)) eqn:L.
      * apply Nat.leb_le in L. intros E. injection E as <- <- <-. right; right; left. exists b. rewrite Hs. rewrite (skipn_all2 i) by lia. cbn [pos]. repeat split; auto. lia.
      * replace (pos s + 1) with (S (pos s)) by lia. rewrite Hs. pose proof (decode_big b (skipn (S (pos s)) i) C) as D.
        destruct (decode_rune (b :: skipn (S (pos s)) i)) as [r' w'] eqn:Ed. intros E. injection E as <- <- <-. right; right; right.
        exists b, (skipn (S (pos s)) i). cbn [fst pos] in *. split; [reflexivity|]. split; [exact D|]. lia.
    + intros E. injection E as <- <- <-. apply Z.leb_gt in C. left. exists b, (skipn (S (pos s)) i). cbn [pos]. repeat split; auto; lia.
  - apply nth_error_None in En. change (128 <=? eof)%Z with false. intros E. injection E as <- <- <-. right; left. rewrite skipn_all2 by lia. auto.
Qed.
Lemma skipn_S {A} (i : list A) p b r : skipn p i = b :: r -> skipn (S p) i = r.
Proof. revert i; induction p as [|p IH]; intros [|x i] H; try discriminate; [cbn in *; congruence|]. exact (IH i H). Qed.
Lemma nameloop_text n i : forall s s1, scanName_loop n i s = Ok tt s1 ->
  exists w j rest, skipn (pos s) i = w ++ j ++ rest /\ pos s1 = pos s + List.length w + List.length j /\ Forall namechar w /\
    (j = [] \/ exists b, j = [b] /\ (zb b = 0%Z \/ (128 <= zb b)%Z /\ rest = [])).
Proof.
  induction n as [|n IH]; intros s s1; [discriminate|]. cbn [scanName_loop]. unfold bind. destruct (readr i s) as [[r w] s2| |] eqn:E; try discriminate.
  apply readr_cases in E. destruct E as [(b & rest & Hs & Hr & Hlt & Hw & Hp)|[(Hs & Hr & Hw & Hp)|[(b & Hs & Hb & Hr & Hw & Hp)|(b & rest & Hs & Hr & Hp)]]].
  - destruct (is_name_cont r) eqn:C.
    + intros H. destruct (IH _ _ H) as (w' & j & rest' & H1 & H2 & H3 & H4). rewrite Hp in H1, H2. rewrite (skipn_S _ _ _ _ Hs) in H1.
      exists (b :: w'), j, rest'. rewrite Hs, H1. split; [reflexivity|]. split; [cbn; unfold rune_error; lia|]. split; [|exact H4]. constructor; [|exact H3].
      apply is_name_cont_spec in C. rewrite Hr in C. exact C.
    + destruct (Z.eqb r eof) eqn:Ee.
      * apply Z.eqb_eq in Ee. intros H. injection H as <-. exists [], [b], rest. split; [exact Hs|]. split; [cbn; unfold rune_error; lia|]. split; [constructor|]. right. exists b. split; [reflexivity|]. left. unfold eof in Ee. lia.
      * unfold unread. destruct (Nat.ltb (pos s2) w) eqn:L; [discriminate|]. intros H. injection H as <-. exists [], [], (b :: rest). cbn [pos app List.length]. split; [exact Hs|]. split; [lia|]. auto.
  - replace (is_name_cont r) with false by (rewrite Hr; reflexivity). replace (Z.eqb r eof) with true by (rewrite Hr; reflexivity). intros H. injection H as <-.
    exists [], [], []. split; [exact Hs|]. split; [cbn; unfold rune_error; lia|]. auto.
  - replace (is_name_cont r) with false by (rewrite Hr; reflexivity). replace (Z.eqb r eof) with true by (rewrite Hr; reflexivity). intros H. injection H as <-.
    exists [], [b], []. split; [exact Hs|]. split; [cbn; unfold rune_error; lia|]. split; [constructor|]. right. eauto.
  - destruct (is_name_cont r) eqn:C. { apply is_name_cont_spec in C. unfold name_char, letter, digit in C. lia. }
    destruct (Z.eqb r eof) eqn:Ee. { apply Z.eqb_eq in Ee. unfold eof in Ee. lia. }
    unfold unread. destruct (Nat.ltb (pos s2) w) eqn:L; [discriminate|]. intros H. injection H as <-. exists [], [], (b :: rest). cbn [pos app List.length]. split; [exact Hs|]. split; [lia|]. auto.
Qed.
(** The rune at which a token starts is the byte before the position. *)
Definition at_letter (i : bytes) (s : lst) (r : Z) : Prop := letter r -> exists b, skipn (pos s - 1) i = b :: skipn (pos s) i /\ zb b = r /\ pos s <> 0.
Lemma readr_at i s r w s1 : readr i s = Ok (r, w) s1 -> at_letter i s1 r.
Proof.
  intros E L. apply readr_cases in E. destruct E as [(b & rest & Hs & Hr & Hlt & Hw & Hp)|[(Hs & Hr & Hw & Hp)|[(b & Hs & Hb & Hr & Hw & Hp)|(b & rest & Hs & Hr & Hp)]]].
  - exists b. rewrite Hp. replace (S (pos s) - 1) with (pos s) by lia. rewrite (skipn_S _ _ _ _ Hs), Hs. repeat split; auto.
  - rewrite Hr in L. unfold eof, letter in L. lia.
  - rewrite Hr in L. unfold eof, letter in L. lia.
  - unfold letter in L. lia.
Qed.
Lemma significant_at n i : forall c s r w s1, readNextSignificant_loop n c i s = Ok (r, w) s1 -> at_letter i s1 r.
Proof.
  induction n as [|n IH]; intros c s r w s1; [discriminate|]. cbn [readNextSignificant_loop]. unfold bind. destruct (readr i s) as [[r1 w1] s2| |] eqn:E; try discriminate.
  destruct (Z.eqb r1 c_cr). { unfold newline. apply IH. }
  destruct (Z.eqb r1 c_lf). { destruct c; unfold newline, ret; apply IH. }
  destruct ((r1 =? c_tab) || (r1 =? c_ws) || (r1 =? c_com) || (r1 =? c_bom))%lex; [apply IH|].
  unfold ret. intros H. injection H as <- <- <-. eapply readr_at, E.
Qed.
Definition good_name_tok (i : bytes) (t : token) : Prop := tkind t = KName -> name_in i (tlit t).
Lemma name_text i s r t s' : at_letter i s r -> letter r -> scanName i s = Ok t s' -> good_name_tok i t.
Proof.
  intros Ha L. destruct (Ha L) as (b0 & Hs & Hb & Hp). unfold scanName, bind, get, with_fuel. destruct (scanName_loop (fuel_of i) i s) as [[] s1| |] eqn:E; try discriminate.
  apply nameloop_text in E. destruct E as (w & j & rest & H1 & H2 & H3 & H4). unfold slice.
  destruct ((0 <=? Z.of_nat (pos s) - 1) && (Z.of_nat (pos s) - 1 <=? Z.of_nat (pos s1)) && (Z.of_nat (pos s1) <=? Z.of_nat (List.length i)))%Z eqn:C; [|discriminate].
  unfold ret. intros H. injection H as <- _. intros _. cbn [tlit].
  replace (Z.to_nat (Z.of_nat (pos s) - 1)) with (pos s - 1) by lia. replace (Z.to_nat (Z.of_nat (pos s1) - (Z.of_nat (pos s) - 1))) with (List.length (b0 :: w ++ j)) by (cbn [List.length]; rewrite app_length; lia).
  rewrite Hs, H1. replace (b0 :: w ++ j ++ rest) with ((b0 :: w ++ j) ++ rest) by (cbn [app]; rewrite app_assoc; reflexivity). rewrite firstn_app, firstn_all, Nat.sub_diag. cbn [firstn]. rewrite app_nil_r.
  assert (proper_name (b0 :: w)) as Pn by (exists b0, w; rewrite Hb; auto).
  exists (firstn (pos s - 1) i), rest. split.
  { rewrite <- (firstn_skipn (pos s - 1) i) at 1. f_equal. rewrite Hs, H1. cbn [app]. rewrite app_assoc. reflexivity. }
  destruct H4 as [->|(b & -> & Hj)].
  - left. rewrite app_nil_r. exact Pn.
  - right. exists (b0 :: w), b. split; [reflexivity|]. split; [exact Pn|]. exact Hj.
Qed.
Lemma scan_text n i : forall s t s', scan_loop n i s = Ok t s' -> good_name_tok i t.
Proof.
  induction n as [|n IH]; intros s t s'; [discriminate|]. cbn [scan_loop]. unfold bind at 1. unfold readNextSignificant, with_fuel.
  destruct (readNextSignificant_loop (fuel_of i) false i s) as [[r w] s1| |] eqn:E; try discriminate. apply significant_at in E.
  assert (forall m : M token, yields m (fun t => tkind t <> KName) -> forall s t s', m i s = Ok t s' -> good_name_tok i t) as Other.
  { intros m Hm s2 t2 s3 H K. exfalso. exact (Hm _ _ _ _ H K). }
  destruct (is_name_start r) eqn:C1. { apply is_name_start_spec in C1. eapply name_text; eassumption. }
  destruct (is_punct r). { apply Other. intros i0 s0 a s2 H. unfold scanPunctuator, illegal, bind, get, slice, ret in H.
    destruct (Z.eqb r 46).
    - destruct (readr i0 s0) as [[? ?] ?| |]; try discriminate. destruct (readr i0 _) as [[? ?] ?| |]; try discriminate. destruct (negb _ || negb _); injection H as <- _; discriminate.
    - destruct (_ && _ && _); [|discriminate]. injection H as <- _. discriminate. }
  destruct (is_digit r || (r =? 45))%lex. { apply Other. unfold scanNumber, illegal. apply yields_bind; intros s0. cbv zeta.
    apply yields_bind; intros [e|rw]; [apply yields_ret; discriminate|]. apply yields_bind; intros [e|[rw1 fl]]; [apply yields_ret; discriminate|].
    apply yields_bind; intros [e|[[r2 w2] fl2]]; [apply yields_ret; discriminate|]. apply yields_bind; intros _. apply yields_bind; intros s2. apply yields_bind; intros lit. apply yields_ret. destruct fl2; discriminate. }
  destruct (Z.eqb r 35). { unfold bind, with_fuel. destruct (scanComment_loop (fuel_of i) false i s1) as [? s2| |]; try discriminate. apply IH. }
  destruct (Z.eqb r 34).
  - apply Other. apply yields_bind; intros [r1 w1]. apply yields_bind; intros [r2 w2]. destruct ((r1 =? 34) && (r2 =? 34))%lex.
    + unfold scanBlockString, illegal. apply yields_bind; intros s0. cbv zeta. repeat first [apply yields_ret; discriminate|apply yields_bind; intros ?|match goal with |- yields (match ?x with _ => _ end) _ => destruct x end].
    + apply yields_bind; intros _. apply yields_bind; intros _. unfold scanString, illegal. apply yields_bind; intros s0. cbv zeta. repeat first [apply yields_ret; discriminate|apply yields_bind; intros ?|match goal with |- yields (match ?x with _ => _ end) _ => destruct x end].
  - apply Other. destruct (Z.eqb r eof); repeat first [apply yields_ret; discriminate|apply yields_bind; intros ?].
Qed.
Theorem tokens_text i ts : tokens i ts -> Forall (good_name_tok i) ts.
Proof.
  intros (s & H). unfold lex_all in H. revert ts s H. generalize lex_init. induction (fuel_of i) as [|n IH]; intros s0 ts s H; [discriminate|]. cbn [lex_loop] in H.
  destruct (scan i s0) as [t s1| |] eqn:E; try discriminate. apply scan_text in E. destruct (is_last t); [injection H as <- _; auto|].
  destruct (lex_loop n i s1) as [ts' s2| |] eqn:El; try discriminate. injection H as <- _. constructor; [exact E|]. eapply IH, El.
Qed.
