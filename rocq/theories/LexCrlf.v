(** * LexCrlf: positions on sources whose line breaks are CR LF.  The specification comes first, the proofs after it. *)
From Verif Require Import Base Utf8 Utf8Proofs Lexer LexerTotal LexCP LexRefine LexSpec LexAgree LexMain.
From Coq Require Import ZifyBool ZifyNat ZifyN.
Local Open Scope Z_scope.

(** ** Specification *)
(** Every CR is followed by an LF and every LF preceded by a CR. *)
Inductive crlf_text : list Z -> Prop :=
| ct_end : crlf_text []
| ct_char c t : c <> 13 -> c <> 10 -> crlf_text t -> crlf_text (c :: t)
| ct_break t : crlf_text t -> crlf_text (13 :: 10 :: t).

(** Reading a text without block strings from its start: where one is, and whether the last line break was outside comments. *)
Inductive place := Code | Comment | InString | Escaped.
Definition read_char (p : place * bool) (c : Z) : place * bool :=
  match fst p with
  | Code => if Z.eqb c 35 then (Comment, snd p) else if Z.eqb c 34 then (InString, snd p)
            else if Z.eqb c 13 then (Code, true) else p
  | Comment => if Z.eqb c 13 then (Code, false) else p
  | InString => if Z.eqb c 34 then (Code, snd p) else if Z.eqb c 92 then (Escaped, snd p) else p
  | Escaped => (InString, snd p)
  end.
(** The line at the end of [pre] was begun by a line break that does not end a comment. *)
Definition shifted (pre : list Z) : bool := snd (fold_left read_char pre (Code, false)).

(** [pre] ends outside of strings and comments. *)
Definition in_code (pre : list Z) : Prop := fst (fold_left read_char pre (Code, false)) = Code.

(** ** Proofs *)
Definition reading (w : list Z) (p : place * bool) := fold_left read_char w p.
Definition step_w (p : nat * nat) (c : Z) : nat * nat :=
  if Z.eqb c 13 then (S (fst p), 0%nat) else if Z.eqb c 10 then (fst p, 0%nat) else (fst p, S (snd p)).
Definition wpos (w : list Z) (p : nat * nat) : nat * nat := fold_left step_w w p.
Definition b2n (b : bool) : nat := if b then 1%nat else 0%nat.

Lemma reading_app a b p : reading (a ++ b) p = reading b (reading a p). Proof. apply fold_left_app. Qed.
Lemma wpos_app a b p : wpos (a ++ b) p = wpos b (wpos a p). Proof. apply fold_left_app. Qed.
Lemma reading_cons c w p : reading (c :: w) p = reading w (read_char p c). Proof. reflexivity. Qed.
Lemma wpos_cons c w p : wpos (c :: w) p = wpos w (step_w p c). Proof. reflexivity. Qed.

Lemma wpos_line pre u p : crlf_text (pre ++ u) -> (fst p + line_count pre)%nat = fst (wpos pre p).
Proof.
  intros H. remember (pre ++ u) as cs eqn:E. revert pre p E.
  induction H as [|c t H1 H2 H IH|t H IH]; intros pre p E.
  - symmetry in E. apply app_eq_nil in E as [-> ->]. cbn. lia.
  - destruct pre as [|x pre]; [cbn; lia|]. cbn in E. injection E as <- E. rewrite wpos_cons. unfold step_w.
    cbn [line_count]. replace (c =? 10) with false by lia. replace (c =? 13) with false by lia. rewrite <- IH by exact E. reflexivity.
  - destruct pre as [|x [|y pre]]; [cbn; lia|cbn in E; injection E as <- _; cbn; lia|].
    cbn in E. injection E as <- <- E. rewrite !wpos_cons. cbn [line_count step_w Z.eqb Pos.eqb fst snd]. rewrite <- IH by exact E. cbn [fst]. lia.
Qed.
Lemma wpos_col pre u n cur : crlf_text (pre ++ u) -> List.length (last_line pre cur) = snd (wpos pre (n, List.length cur)).
Proof.
  intros H. remember (pre ++ u) as cs eqn:E. revert pre n cur E.
  induction H as [|c t H1 H2 H IH|t H IH]; intros pre n cur E.
  - symmetry in E. apply app_eq_nil in E as [-> ->]. reflexivity.
  - destruct pre as [|x pre]; [reflexivity|]. cbn in E. injection E as <- E. rewrite wpos_cons. unfold step_w.
    cbn [last_line]. replace (c =? 10) with false by lia. replace (c =? 13) with false by lia. cbn [orb fst snd].
    rewrite (IH pre n) by exact E. rewrite app_length. cbn [List.length]. f_equal. f_equal. f_equal. lia.
  - destruct pre as [|x [|y pre]]; [reflexivity|cbn in E; injection E as <- _; reflexivity|].
    cbn in E. injection E as <- <- E. rewrite !wpos_cons. cbn [last_line step_w Z.eqb Pos.eqb fst snd orb].
    rewrite (IH pre (S n) []) by exact E. reflexivity.
Qed.

(** Skipping. *)
Definition place_of (m : mode) : place := match m with Com => Comment | _ => Code end.
Lemma skip_crlf cs : crlf_text cs -> forall m ln lp r ln' lp', skip cs m ln lp = (r, ln', lp') -> m <> ComCR ->
  exists ign, cs = ign ++ r /\ crlf_text r /\ forall e c0, lp = (c0 + b2n e)%nat ->
    ln' = fst (wpos ign (ln, c0)) /\
    lp' = (snd (wpos ign (ln, c0)) + b2n (snd (reading ign (place_of m, e))))%nat /\
    (r <> [] -> fst (reading ign (place_of m, e)) = Code).
Proof.
  induction 1 as [|c t H1 H2 H IH|t H IH]; intros m ln lp r ln' lp' Hs Hm.
  - cbn in Hs. injection Hs as <- <- <-. exists []. split; [reflexivity|]. split; [constructor|]. intros e c0 ->. cbn. auto.
    split; [reflexivity|]. split; [reflexivity|]. intros Hn. destruct Hn. reflexivity.
  - (* another character than CR and LF *)
    assert (G : forall m', m' <> ComCR -> read_char (place_of m, true) c = (place_of m', true) ->
              read_char (place_of m, false) c = (place_of m', false) -> skip t m' ln (lp + 1) = (r, ln', lp') ->
      exists ign, c :: t = ign ++ r /\ crlf_text r /\ forall e c0, lp = (c0 + b2n e)%nat ->
        ln' = fst (wpos ign (ln, c0)) /\
        lp' = (snd (wpos ign (ln, c0)) + b2n (snd (reading ign (place_of m, e))))%nat /\
        (r <> [] -> fst (reading ign (place_of m, e)) = Code)).
    { intros m' Hm' R1 R2 Hk. destruct (IH _ _ _ _ _ _ Hk Hm') as (ign & -> & Hr & Hp). exists (c :: ign).
      split; [reflexivity|]. split; [exact Hr|]. intros e c0 ->. rewrite wpos_cons, reading_cons.
      replace (read_char (place_of m, e) c) with (place_of m', e) by (destruct e; auto).
      unfold step_w. replace (c =? 13) with false by lia. replace (c =? 10) with false by lia. cbn [fst snd].
      apply Hp. lia. }
    destruct m as [wc| |]; [| |congruence]; cbn [skip] in Hs; unfold c_cr, c_lf in Hs;
      replace (c =? 13) with false in Hs by lia; replace (c =? 10) with false in Hs by lia.
    + destruct (ignorable c) eqn:Ei.
      { assert (Hc : (c =? 35) = false /\ (c =? 34) = false) by (unfold ignorable, c_tab, c_ws, c_com, c_bom in Ei; lia).
        destruct Hc as [C1 C2]. apply (G (Norm wc)); try discriminate; try exact Hs;
          unfold read_char; cbn [fst snd place_of]; rewrite C1, C2; replace (c =? 13) with false by lia; reflexivity. }
      destruct (Z.eqb_spec c 35) as [->|Hc].
      { apply (G Com); try discriminate; try exact Hs; reflexivity. }
      injection Hs as <- <- <-. exists []. split; [reflexivity|]. split; [constructor; assumption|]. intros e c0 ->. cbn. auto.
    + apply (G Com); try discriminate; try exact Hs; unfold read_char; cbn [fst snd place_of];
        replace (c =? 13) with false by lia; reflexivity.
  - destruct m as [wc| |]; [| |congruence].
    + cbn [skip] in Hs. unfold c_cr, c_lf in Hs. cbn [Z.eqb Pos.eqb] in Hs.
      destruct (IH _ _ _ _ _ _ Hs ltac:(discriminate)) as (ign & -> & Hr & Hp). exists (13 :: 10 :: ign).
      split; [reflexivity|]. split; [exact Hr|]. intros e c0 _. rewrite !wpos_cons, !reading_cons.
      cbn [step_w read_char Z.eqb Pos.eqb fst snd place_of]. apply (Hp true 0%nat). reflexivity.
    + cbn [skip] in Hs. unfold c_cr, c_lf in Hs. cbn [Z.eqb Pos.eqb] in Hs.
      destruct (IH _ _ _ _ _ _ Hs ltac:(discriminate)) as (ign & -> & Hr & Hp). exists (13 :: 10 :: ign).
      split; [reflexivity|]. split; [exact Hr|]. intros e c0 _. rewrite !wpos_cons, !reading_cons.
      cbn [step_w read_char Z.eqb Pos.eqb fst snd place_of]. apply (Hp false 0%nat). reflexivity.
Qed.

(** Tokens other than block strings. *)
Definition quiet (w : list Z) : Prop := Forall (fun c => c <> 10 /\ c <> 13 /\ c <> 34 /\ c <> 35) w.
Lemma quiet_reading w e : quiet w -> reading w (Code, e) = (Code, e).
Proof.
  induction 1 as [|c w (H1 & H2 & H3 & H4) H IH]; [reflexivity|]. rewrite reading_cons. unfold read_char. cbn [fst snd].
  replace (c =? 35) with false by lia. replace (c =? 34) with false by lia. replace (c =? 13) with false by lia. exact IH.
Qed.
Definition no_breaks (w : list Z) : Prop := Forall (fun c => c <> 10 /\ c <> 13) w.
Lemma quiet_breaks w : quiet w -> no_breaks w. Proof. apply Forall_impl. tauto. Qed.
Lemma wpos_no_breaks w n c : no_breaks w -> wpos w (n, c) = (n, (c + List.length w)%nat).
Proof.
  intros H. revert c. induction H as [|x w [H1 H2] H IH]; intros c; [cbn; f_equal; lia|].
  rewrite wpos_cons. unfold step_w. replace (x =? 13) with false by lia. replace (x =? 10) with false by lia. cbn [fst snd List.length].
  rewrite IH. f_equal. lia.
Qed.
Lemma digits_quiet ds : Forall digit ds -> quiet ds. Proof. apply Forall_impl. unfold digit. intros; lia. Qed.
Lemma natural_quiet w : natural_part w -> quiet w.
Proof. intros [|d ds H1 H2]; constructor; try lia; [constructor|apply digits_quiet, H2]. Qed.
Lemma integer_quiet w : integer_part w -> quiet w.
Proof. intros [H|(u & -> & H)]; [|constructor; [lia|]]; apply natural_quiet, H. Qed.
Lemma frac_quiet w : fractional_part w -> quiet w.
Proof. intros (ds & -> & _ & H). constructor; [lia|apply digits_quiet, H]. Qed.
Lemma exp_quiet w : exponent_part w -> quiet w.
Proof.
  intros (x & sg & ds & -> & Hx & Hsg & _ & H). constructor; [lia|]. apply Forall_app. split; [|apply digits_quiet, H].
  destruct Hsg as [->|[->| ->]]; repeat constructor; lia.
Qed.
Lemma string_reading b v e : string_chars b v -> no_breaks b /\ reading b (InString, e) = (InString, e).
Proof.
  assert (D : forall x y, hexdigit x y -> x <> 10 /\ x <> 13 /\ x <> 34 /\ x <> 92 /\ read_char (InString, e) x = (InString, e)).
  { intros x y H. assert (A : x <> 10 /\ x <> 13 /\ x <> 34 /\ x <> 92) by (destruct H; lia).
    destruct A as (A1 & A2 & A3 & A4). repeat (split; [assumption|]). unfold read_char. cbn [fst snd].
    replace (x =? 34) with false by lia. replace (x =? 92) with false by lia. reflexivity. }
  induction 1 as [|c b v Hc Hq Hb H [IH1 IH2]|x y b v He H [IH1 IH2]|h1 h2 h3 h4 x1 x2 x3 x4 b v H1 H2 H3 H4 H [IH1 IH2]].
  - split; [constructor|reflexivity].
  - split; [constructor; [lia|exact IH1]|]. rewrite reading_cons. unfold read_char. cbn [fst snd].
    replace (c =? 34) with false by lia. replace (c =? 92) with false by lia. exact IH2.
  - split.
    + constructor; [lia|]. constructor; [|exact IH1]. unfold escape in He. cbn [In] in He.
      repeat destruct He as [He|He]; try contradiction; injection He as <- <-; lia.
    + rewrite !reading_cons. exact IH2.
  - destruct (D _ _ H1) as (? & ? & ? & ? & R1). destruct (D _ _ H2) as (? & ? & ? & ? & R2).
    destruct (D _ _ H3) as (? & ? & ? & ? & R3). destruct (D _ _ H4) as (? & ? & ? & ? & R4). split.
    + do 6 (constructor; [lia|]). exact IH1.
    + rewrite !reading_cons. change (read_char (read_char (InString, e) 92) 117) with (InString, e). rewrite R1, R2, R3, R4. exact IH2.
Qed.

Lemma lexeme_reading k w lit stop e : lexeme k w lit stop -> ~ is_block w -> no_breaks w /\ reading w (Code, e) = (Code, e).
Proof.
  assert (Q : forall u, quiet u -> no_breaks u /\ reading u (Code, e) = (Code, e)) by (intros u Hu; split; [apply quiet_breaks|apply quiet_reading]; exact Hu).
  intros Hl Hb. destruct Hl as [c Hc| |c w Hc Hw|w Hw|w f Hw Hf|w x Hw Hf|w f x Hw Hf Hx|b v Hs|b raw Hs].
  - apply Q. constructor; [unfold punctuator in Hc; cbn in Hc; lia|constructor].
  - apply Q. repeat constructor; lia.
  - apply Q. constructor; [unfold letter in Hc; lia|]. eapply Forall_impl; [|exact Hw]. unfold name_char, letter, digit. cbn. intros; lia.
  - apply Q, integer_quiet, Hw.
  - apply Q, Forall_app. split; [apply integer_quiet, Hw|apply frac_quiet, Hf].
  - apply Q, Forall_app. split; [apply integer_quiet, Hw|apply exp_quiet, Hf].
  - apply Q, Forall_app. split; [apply integer_quiet, Hw|]. apply Forall_app. split; [apply frac_quiet, Hf|apply exp_quiet, Hx].
  - destruct (string_reading b v e Hs) as [A1 A2]. split.
    + constructor; [lia|]. apply Forall_app. split; [exact A1|repeat constructor; lia].
    + rewrite reading_cons. cbn [read_char fst snd Z.eqb Pos.eqb]. rewrite reading_app, A2. reflexivity.
  - exfalso. apply Hb. exists b. reflexivity.
Qed.

Lemma ctoken_line r ln lp k lit l c r2 ln2 lp2 : ctoken r ln lp = CTok k lit l c r2 ln2 lp2 -> ~ contains triple r -> l = ln /\ ln2 = ln.
Proof.
  intros H Ht. destruct r as [|x t]; cbn [ctoken] in H; [discriminate|].
  destruct (is_name_start x); [destruct (span is_name_cont t); injection H; auto|].
  destruct (is_punct x).
  { destruct (x =? 46); [|injection H; auto].
    destruct (match t with x :: y :: _ => ((x =? 46) && (y =? 46))%bool | _ => false end); [injection H; auto|discriminate]. }
  destruct (is_digit x || (x =? 45))%bool; [destruct (cnum (x :: t)) as [[[? ?] ?]|]; [injection H; auto|discriminate]|].
  destruct (Z.eqb_spec x 34) as [->|]; [|discriminate].
  destruct (two_quotes t) eqn:E.
  - exfalso. apply two_quotes_spec in E as [u ->]. apply Ht. exists [], u. reflexivity.
  - destruct (cstr t) as [[? ?]|]; [injection H; auto|discriminate].
Qed.

Lemma crlf_app_r w r : no_breaks w -> crlf_text (w ++ r) -> crlf_text r.
Proof.
  induction 1 as [|c w [H1 H2] H IH]; [auto|]. cbn. intros Hc. inversion Hc; subst; [apply IH; assumption|congruence].
Qed.

Definition row_line_w (t : row) (k : stok) : Prop := snd (fst t) = fst (wpos (sbefore k) (1, 0)%nat).
Definition row_col_w (t : row) (k : stok) : Prop :=
  snd t = (Z.of_nat (snd (wpos (sbefore k) (1, 0)%nat) + b2n (shifted (sbefore k))) + 1)%Z.

Lemma wpos_fst w p q : fst p = fst q -> fst (wpos w p) = fst (wpos w q).
Proof.
  revert p q. induction w as [|c w IH]; intros p q H; [exact H|]. rewrite !wpos_cons. apply IH. unfold step_w.
  destruct (c =? 13); [cbn; congruence|]. destruct (c =? 10); cbn; exact H.
Qed.

Lemma clex_crlf f : forall cs pre ln lp, clean cs -> crlf_text cs -> ~ contains triple cs -> (List.length cs < f)%nat ->
  exists ts lk ll lc toks body rest,
    clex f cs ln lp = ts ++ [(lk, [], ll, lc)] /\ lexing pre cs toks rest /\ cs = body ++ rest /\
    Forall2 row_is ts toks /\ (lk = KEOF /\ rest = [] \/ lk = KIllegal /\ stuck rest) /\
    (ln = fst (wpos pre (1, 0)%nat) ->
       Forall2 row_line_w ts toks /\ ll = fst (wpos (pre ++ body) (1, 0)%nat)) /\
    (~ ends_dq cs -> fst (reading pre (Code, false)) = Code -> ln = fst (wpos pre (1, 0)%nat) -> lp = (snd (wpos pre (1, 0)%nat) + b2n (shifted pre))%nat ->
       Forall2 row_col_w ts toks /\
       (~ dangling_quote rest -> lc = (Z.of_nat (snd (wpos (pre ++ body) (1, 0)%nat) + b2n (shifted (pre ++ body))) + 1)%Z)).
Proof.
  induction f as [|f IH]; intros cs pre ln lp Hcl Hw Ht Hf; [lia|].
  cbn [clex]. unfold cscan. destruct (skip cs (Norm false) ln lp) as [[r ln1] lp1] eqn:Es.
  destruct (skip_sound _ _ _ _ _ _ _ Es) as (ign & (Ecs & Hsig & Hlx) & _).
  destruct (skip_crlf _ Hw _ _ _ _ _ _ Es ltac:(discriminate)) as (ign0 & Ecs0 & Hwr & Hpos).
  assert (ign0 = ign) as -> by (apply (app_inv_tail r); congruence). clear Ecs0.
  assert (Hline : ln = fst (wpos pre (1, 0)%nat) -> ln1 = fst (wpos (pre ++ ign) (1, 0)%nat)).
  { intros ->. rewrite wpos_app. destruct lp as [|lp].
    - destruct (Hpos false 0%nat eq_refl) as (P & _). rewrite P. apply wpos_fst. reflexivity.
    - destruct (Hpos false (S lp)) as (P & _); [cbn; lia|]. rewrite P. apply wpos_fst. reflexivity. }
  assert (Hcol : fst (reading pre (Code, false)) = Code -> ln = fst (wpos pre (1, 0)%nat) -> lp = (snd (wpos pre (1, 0)%nat) + b2n (shifted pre))%nat ->
      lp1 = (snd (wpos (pre ++ ign) (1, 0)%nat) + b2n (shifted (pre ++ ign)))%nat /\ (r <> [] -> fst (reading (pre ++ ign) (Code, false)) = Code)).
  { intros Hst El Elp. destruct (Hpos _ _ Elp) as (_ & P1 & P2). unfold shifted.
    change (fold_left read_char (pre ++ ign) (Code, false)) with (reading (pre ++ ign) (Code, false)).
    rewrite wpos_app, reading_app.
    replace (reading pre (Code, false)) with (Code, shifted pre) by (unfold shifted; rewrite <- Hst at 1; symmetry; apply surjective_pairing).
    replace (wpos pre (1, 0)%nat) with (ln, snd (wpos pre (1, 0)%nat)) by (rewrite El; symmetry; apply surjective_pairing).
    cbn [place_of] in P1, P2. split; [exact P1|exact P2]. }
  assert (Hclr : clean r) by (rewrite Ecs in Hcl; apply (clean_app_r _ _ Hcl)).
  assert (Htr : ~ contains triple r) by (intros Hx; apply Ht; rewrite Ecs; apply contains_app_r, Hx).
  assert (Hregr : regular_blocks r) by (left; exact Htr).
  destruct (ctoken r ln1 lp1) as [l c|l c|k lit l c r2 ln2 lp2] eqn:Et.
  - destruct (ctoken_eof _ _ _ _ _ Et) as (-> & -> & ->).
    exists [], KEOF, ln1, (Z.of_nat lp1 + 1)%Z, [], ign, []. split; [reflexivity|].
    split; [apply Hlx; constructor|]. split; [exact Ecs|]. split; [constructor|]. split; [left; auto|]. split.
    + intros E. split; [constructor|]. apply Hline, E.
    + intros _ H1 H2 H3. split; [constructor|]. intros _. rewrite (proj1 (Hcol H1 H2 H3)). reflexivity.
  - destruct (ctoken_ill _ _ _ _ _ Et) as (Hne & -> & Hc).
    exists [], KIllegal, ln1, c, [], ign, r. split; [reflexivity|].
    split; [apply Hlx; constructor|]. split; [exact Ecs|]. split; [constructor|]. split.
    { right. split; [reflexivity|]. split; [exact Hne|]. split.
      - intros c0 t0 ->. exact Hsig.
      - intros k w lit stop t -> Hlex He.
        destruct (ctoken_complete _ _ _ _ _ ln1 lp1 Hlex He Hclr Hregr) as (? & ? & ? & ? & E & _). congruence. }
    split.
    + intros E. split; [constructor|]. apply Hline, E.
    + intros _ H1 H2 H3. split; [constructor|]. intros Hd. rewrite <- (proj1 (Hcol H1 H2 H3)). apply Hc, Hd.
  - destruct (ctoken_sound _ _ _ _ _ _ _ _ _ _ Hclr Hregr Et) as (w & stop & Er & Hlex & He).
    destruct (ctoken_line _ _ _ _ _ _ _ _ _ _ Et Htr) as (L1 & L2). subst r.
    destruct (ctoken_complete _ _ _ _ _ ln1 lp1 Hlex He Hclr Hregr) as (l' & c' & ln' & lp' & E & P1 & P2 & _ & P4).
    rewrite Et in E. remember lit as lit0 eqn:El. injection E as <- <- <- <-.
    pose proof (lexeme_nonempty _ _ _ _ Hlex) as Hwn.
    assert (Hnb : ~ is_block w).
    { intros (b & ->). apply Htr. exists [], (b ++ triple ++ r2). rewrite <- !app_assoc. reflexivity. }
    assert (Hbr : no_breaks w) by (apply (lexeme_reading _ _ _ _ false Hlex Hnb)).
    destruct (IH r2 ((pre ++ ign) ++ w) ln2 lp2) as (ts & lk & ll & lc & toks & body & rest & I1 & I2 & I3 & I4 & I5 & I6 & I7).
    { apply (clean_app_r _ _ Hclr). } { apply (crlf_app_r w _ Hbr Hwr). }
    { intros Hx. apply Htr, contains_app_r, Hx. }
    { rewrite Ecs, !app_length in Hf. destruct w; [congruence|cbn in Hf; lia]. }
    exists ((k, lit, l, c) :: ts), lk, ll, lc, (mkStok k lit (pre ++ ign) w :: toks), (ign ++ w ++ body), rest.
    split; [rewrite El, I1; reflexivity|].
    split; [apply Hlx; subst lit0; eapply lg_token; eassumption|].
    split; [rewrite Ecs, I3, !app_assoc; reflexivity|].
    split; [constructor; [reflexivity|exact I4]|]. split; [exact I5|].
    assert (Hp2 : forall p, wpos w p = (fst p, (snd p + List.length w)%nat)) by (intros [n0 c0]; apply wpos_no_breaks, Hbr).
    split.
    + intros E. pose proof (Hline E) as Hn1.
      destruct I6 as (J1 & J2). { rewrite L2, wpos_app, Hp2. exact Hn1. }
      split; [constructor; [|exact J1]|].
      * unfold row_line_w. cbn [fst snd sbefore]. congruence.
      * rewrite J2, <- !app_assoc. reflexivity.
    + intros Hd H1 H2 H3. destruct (Hcol H1 H2 H3) as (C1 & C2).
      assert (Hst : fst (reading (pre ++ ign) (Code, false)) = Code) by (apply C2; destruct w; [congruence|discriminate]).
      assert (Hrw : reading ((pre ++ ign) ++ w) (Code, false) = (Code, shifted (pre ++ ign))).
      { rewrite reading_app. replace (reading (pre ++ ign) (Code, false)) with (Code, shifted (pre ++ ign))
          by (unfold shifted; rewrite <- Hst at 1; symmetry; apply surjective_pairing).
        apply (lexeme_reading _ _ _ _ _ Hlex Hnb). }
      assert (Hdq : w <> [34%Z; 34%Z] \/ r2 <> []).
      { destruct r2; [left|right; discriminate]. intros ->. apply Hd. exists ign. rewrite Ecs, app_nil_r. reflexivity. }
      destruct I7 as (J1 & J2).
      { intros Hx. apply Hd. rewrite Ecs. apply ends_dq_app, ends_dq_app, Hx. }
      { rewrite Hrw. reflexivity. }
      { rewrite L2, wpos_app, Hp2. exact (Hline H2). }
      { rewrite (P4 Hnb Hdq). rewrite pos_after_nolf by (eapply Forall_impl; [|exact Hbr]; cbn; intros; lia).
        cbn [fst snd]. rewrite (wpos_app (pre ++ ign)), Hp2. cbn [snd].
        replace (shifted ((pre ++ ign) ++ w)) with (shifted (pre ++ ign)) by (unfold shifted at 2; change (fold_left read_char ((pre ++ ign) ++ w) (Code, false)) with (reading ((pre ++ ign) ++ w) (Code, false)); rewrite Hrw; reflexivity).
        rewrite C1. lia. }
      split; [constructor; [|exact J1]|].
      * unfold row_col_w. cbn [snd sbefore]. rewrite (P2 Hdq), C1. reflexivity.
      * intros Hdr. rewrite (J2 Hdr), <- !app_assoc. reflexivity.
Qed.

Lemma lexing_places cs toks rest : lexing [] cs toks rest -> crlf_text cs -> Forall (fun k => exists u, crlf_text (sbefore k ++ u)) toks.
Proof.
  intros H Hw. destruct (lexing_before _ _ _ _ H) as (_ & _ & Hf). eapply Forall_impl; [|exact Hf].
  intros k (u & E). exists (ssrc k ++ u). rewrite <- E. exact Hw.
Qed.
Lemma wpos_line_of pre u : crlf_text (pre ++ u) -> fst (wpos pre (1, 0)%nat) = line_of pre.
Proof. intros H. rewrite <- (wpos_line pre u (1, 0)%nat H). reflexivity. Qed.
Lemma wpos_column_of pre u : crlf_text (pre ++ u) -> S (snd (wpos pre (1, 0)%nat)) = column_of pre.
Proof. intros H. unfold column_of. rewrite (wpos_col pre u 1 [] H). reflexivity. Qed.

Theorem lex_crlf cs : clean cs -> crlf_text cs -> ~ contains triple cs ->
  exists ts last s' toks body rest,
    lex_all (utf8s cs) = Ok (ts ++ [last]) s' /\ lexing [] cs toks rest /\ cs = body ++ rest /\
    (rest = [] \/ stuck rest) /\
    Forall2 (fun t k => tkind t = skind k /\ tlit t = slit k /\ tline t = line_of (sbefore k)) ts toks /\
    tline last = line_of body /\
    (~ ends_dq cs ->
       Forall2 (fun t k => tcol t = Z.of_nat (column_of (sbefore k) + if shifted (sbefore k) then 1 else 0)) ts toks /\
       (~ dangling_quote rest -> tcol last = Z.of_nat (column_of body + if shifted body then 1 else 0))).
Proof.
  intros Hc Hw Ht. destruct (lex_all_total (utf8s cs)) as (ts & last & s' & Hl & Hlast & Hts & _).
  pose proof (lex_all_clex cs _ s' Hc Hl) as E.
  destruct (clex_crlf (fuel_of (utf8s cs)) cs [] 1 0 Hc Hw Ht) as (rs & lk & ll & lc & toks & body & rest & I1 & I2 & I3 & I4 & I5 & I6 & I7).
  { unfold fuel_of. pose proof (utf8s_length cs). lia. }
  rewrite I1, map_app in E. cbn [map] in E. apply app_inj_tail in E as [E1 E2].
  exists ts, last, s', toks, body, rest. split; [exact Hl|]. split; [exact I2|]. split; [exact I3|].
  assert (Hlk : tkind last = lk /\ tline last = ll /\ tcol last = lc) by (unfold strip in E2; injection E2; auto).
  destruct Hlk as (K1 & K3 & K4).
  pose proof (lexing_places _ _ _ I2 Hw) as Hp. rewrite I3 in Hw.
  destruct (I6 eq_refl) as (J1 & J2). rewrite <- E1 in I4, J1. rewrite Forall2_map_l in I4, J1.
  split; [destruct I5 as [[_ ->]|[_ I5]]; auto|]. split; [|split].
  - assert (A : Forall2 (fun t k => tkind t = skind k /\ tlit t = slit k) ts toks).
    { clear - I4 Hts. induction I4; [constructor|]. inversion Hts; subst. constructor; auto.
      unfold row_is in H. unfold strip in H. cbn in H. unfold is_last in *.
      destruct (tkind x); try discriminate; injection H as -> ->; auto. }
    clear - A J1 Hp. induction A as [|t k ts toks [A1 A2] A IH]; inversion J1; inversion Hp; subst; constructor; auto.
    split; [exact A1|]. split; [exact A2|]. match goal with H : exists u, _ |- _ => destruct H as (u & Hu) end.
    rewrite <- (wpos_line_of _ _ Hu). match goal with H : row_line_w _ _ |- _ => exact H end.
  - rewrite K3, J2. apply (wpos_line_of body rest Hw).
  - intros Hd. destruct (I7 Hd eq_refl eq_refl eq_refl) as (C1 & C2). rewrite <- E1 in C1. rewrite Forall2_map_l in C1. split.
    + eapply Forall2_with; [exact C1|exact Hp|]. intros t k Hx (u & Hu). unfold row_col_w in Hx. unfold strip in Hx. cbn [snd] in Hx.
      rewrite Hx, <- (wpos_column_of _ _ Hu). unfold b2n. destruct (shifted (sbefore k)); lia.
    + intros Hdr. rewrite K4, (C2 Hdr). cbn [app]. rewrite <- (wpos_column_of body rest Hw). unfold b2n. destruct (shifted body); lia.
Qed.

(** [shifted] in two plain cases: on the first line, and when the line before contains no number sign (and its line break
    begins in no comment). *)
Lemma shifted_first_line pre : no_breaks pre -> shifted pre = false.
Proof.
  unfold shifted. change (fold_left read_char pre (Code, false)) with (reading pre (Code, false)).
  assert (G : forall p, no_breaks pre -> snd (reading pre p) = snd p).
  { induction pre as [|c pre IH]; intros p H; [reflexivity|]. inversion H as [|? ? [H1 H2] H3]; subst. rewrite reading_cons, IH by exact H3.
    unfold read_char. replace (c =? 13) with false by lia. destruct (fst p), (c =? 35), (c =? 34); try reflexivity; cbn [snd]; try reflexivity; destruct (c =? 92); reflexivity. }
  intros H. rewrite G by exact H. reflexivity.
Qed.

Lemma reading_code l e : Forall (fun c => c <> 10 /\ c <> 13 /\ c <> 34) l ->
  (~ In 35 l -> reading l (Code, e) = (Code, e)) /\ (In 35 l -> reading l (Code, e) = (Comment, e)).
Proof.
  assert (C : forall m, Forall (fun c => c <> 10 /\ c <> 13 /\ c <> 34) m -> reading m (Comment, e) = (Comment, e)).
  { induction 1 as [|c m (H1 & H2 & H3) H IH]; [reflexivity|]. rewrite reading_cons. unfold read_char. cbn [fst snd].
    replace (c =? 13) with false by lia. exact IH. }
  induction 1 as [|c l (H1 & H2 & H3) H (IH1 & IH2)]; [split; [reflexivity|intros []]|].
  rewrite reading_cons. unfold read_char. cbn [fst snd]. destruct (Z.eqb_spec c 35) as [->|Hn].
  - split; [intros F; destruct F; left; reflexivity|]. intros _. apply C, H.
  - replace (c =? 34) with false by lia. replace (c =? 13) with false by lia. split.
    + intros F. apply IH1. intros G. apply F. right. exact G.
    + intros [F|F]; [congruence|apply IH2, F].
Qed.
Lemma reading_no_breaks s p : no_breaks s -> snd (reading s p) = snd p.
Proof.
  intros H. revert p. induction H as [|c s [H1 H2] H IH]; intros p; [reflexivity|]. rewrite reading_cons, IH.
  unfold read_char. replace (c =? 13) with false by lia. destruct (fst p), (c =? 35), (c =? 34); try reflexivity; cbn [snd]; destruct (c =? 92); reflexivity.
Qed.
Lemma shifted_lines pre l s : Forall (fun c => c <> 10 /\ c <> 13 /\ c <> 34) l -> no_breaks s -> in_code pre ->
  (~ In 35 l -> shifted (pre ++ l ++ [13; 10] ++ s) = true) /\ (In 35 l -> shifted (pre ++ l ++ [13; 10] ++ s) = false).
Proof.
  intros Hl Hs Hp. unfold in_code in Hp. unfold shifted.
  change (fold_left read_char (pre ++ l ++ [13; 10] ++ s) (Code, false)) with (reading (pre ++ l ++ [13; 10] ++ s) (Code, false)).
  rewrite !reading_app. remember (reading pre (Code, false)) as p eqn:Ep. destruct p as [st e].
  change (fold_left read_char pre (Code, false)) with (reading pre (Code, false)) in Hp. rewrite <- Ep in Hp. cbn in Hp. subst st.
  destruct (reading_code l e Hl) as (A1 & A2). rewrite reading_no_breaks by exact Hs. split; intros F.
  - rewrite (A1 F). reflexivity.
  - rewrite (A2 F). reflexivity.
Qed.
