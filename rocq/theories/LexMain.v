(** * LexMain: the lexer against the lexical grammar, for whole sources. *)
From Verif Require Import Base Utf8 Utf8Proofs Lexer LexerTotal LexCP LexRefine LexSpec LexAgree.
From Coq Require Import ZifyBool ZifyNat ZifyN.
Local Open Scope lex_scope.

Lemma regular_app a b : regular_blocks (a ++ b) -> regular_blocks b.
Proof.
  intros [H|H]; [left|right].
  - intros Hc. apply H. apply contains_app_r, Hc.
  - apply (block_safe_app a b H).
Qed.

Lemma regular_block t : regular_blocks (34%Z :: 34%Z :: 34%Z :: t) -> block_safe t.
Proof.
  intros [H|H]; [exfalso; apply H; exists [], t; reflexivity|]. apply (block_safe_app triple t H).
Qed.

Lemma block_chars_clean b v : block_chars b v -> clean b -> clean v.
Proof.
  induction 1 as [|b v H IH|c b v Hc _ _ H IH]; intros Hb.
  - constructor.
  - do 4 (apply Forall_inv_tail in Hb as Hb'; clear Hb; rename Hb' into Hb).
    assert (Q : scalar 34 /\ 34%Z <> 0%Z) by (unfold scalar; lia).
    do 3 (constructor; [exact Q|]). apply IH, Hb.
  - inversion Hb; subst. constructor; [assumption|apply IH; assumption].
Qed.

Lemma block_chars_noCR b v : block_chars b v -> noCR b -> noCR v.
Proof.
  induction 1 as [|b v H IH|c b v Hc _ _ H IH]; intros Hb.
  - constructor.
  - do 4 (apply Forall_inv_tail in Hb as Hb'; clear Hb; rename Hb' into Hb).
    do 3 (constructor; [lia|]). apply IH, Hb.
  - inversion Hb; subst. constructor; [assumption|apply IH; assumption].
Qed.

Lemma block_safe_noCR cs : block_safe cs -> noCR cs.
Proof. intros [H _]. eapply Forall_impl; [|exact H]. cbn. intros; lia. Qed.

Lemma clean_scalars v : clean v -> scalars v.
Proof. apply Forall_impl. tauto. Qed.

Lemma scalars_chars v : scalars v -> chars_utf8 v = utf8s v.
Proof.
  induction 1 as [|c v Hc Hv IH]; [reflexivity|]. cbn [chars_utf8 utf8s flat_map].
  rewrite (proj2 (scalarb_spec c) Hc). f_equal. exact IH.
Qed.

Lemma join_scalars ls : Forall scalars ls -> scalars (join_lf ls).
Proof.
  induction 1 as [|l ls Hl Hls IH]; [constructor|]. destruct ls as [|l2 ls]; [exact Hl|].
  cbn [join_lf] in *. apply Forall_app. split; [exact Hl|]. constructor; [unfold scalar; lia|exact IH].
Qed.

Lemma block_value_scalars raw : scalars raw -> scalars (block_string_value raw).
Proof.
  intros H. unfold block_string_value. pose proof (lines_of_scalars raw [] H (Forall_nil _)) as Hls.
  cbv zeta. apply join_scalars. apply Forall_rev, drop_blank_Forall, Forall_rev, drop_blank_Forall.
  destruct (lines_of raw []) as [|first rest]; [constructor|]. inversion Hls; subst.
  destruct (common_indent rest); [|exact Hls]. constructor; [assumption|].
  apply Forall_map. eapply Forall_impl; [|eassumption]. intros l. apply Forall_skipn.
Qed.

Lemma block_literal raw : clean raw -> noCR raw ->
  blockStringValue (text raw) = chars_utf8 (block_string_value raw).
Proof.
  intros Hc Hn. rewrite text_clean by exact Hc. rewrite blockStringValue_spec; [|apply clean_scalars, Hc|exact Hn].
  symmetry. apply scalars_chars, block_value_scalars, clean_scalars, Hc.
Qed.

Lemma Forall_bool (P : Z -> Prop) (p : Z -> bool) l : (forall c, p c = true <-> P c) ->
  Forall (fun c => p c = true) l <-> Forall P l.
Proof. intros H. rewrite !Forall_forall. split; intros A x Hx; apply H, A, Hx. Qed.

(** ** One token. *)
Definition spec_token (k : kind) (lit : bytes) (cs r : list Z) : Prop :=
  exists w stop, cs = w ++ r /\ lexeme k w lit stop /\ ends stop r.

Lemma ctoken_sound cs ln lp k lit l c r ln' lp' :
  clean cs -> regular_blocks cs -> ctoken cs ln lp = CTok k lit l c r ln' lp' ->
  exists w stop, cs = w ++ r /\ lexeme k w lit stop /\ ends stop r.
Proof.
  intros Hcl Hreg. unfold ctoken. destruct cs as [|x t]; [discriminate|].
  destruct (is_name_start x) eqn:E1.
  { destruct (span is_name_cont t) as [nm r0] eqn:Es. remember (text (x :: nm)) as T eqn:ET.
    intros H; injection H as <- <- _ _ <- _ _. subst T.
    apply span_sound in Es as (-> & H1 & H2). exists (x :: nm), name_char. split; [reflexivity|]. split.
    - rewrite text_clean by (apply (clean_app_l (x :: nm) r0), Hcl).
      apply lx_name; [apply is_name_start_spec, E1|]. apply (Forall_bool _ _ _ is_name_cont_spec), H1.
    - unfold ends. destruct r0 as [|y r0]; [exact I|]. intros Hy. apply is_name_cont_spec in Hy. congruence. }
  destruct (is_punct x) eqn:E2.
  { destruct (Z.eqb_spec x 46) as [->|Hd].
    - destruct (match t with x :: y :: _ => (x =? 46) && (y =? 46) | _ => false end) eqn:E3; [|discriminate].
      intros H; injection H as <- <- _ _ <- _ _.
      destruct t as [|a [|b t]]; try discriminate. assert (a = 46%Z /\ b = 46%Z) as [-> ->] by lia.
      exists [46%Z; 46%Z; 46%Z], nothing. split; [reflexivity|]. split; [constructor|]. unfold ends. destruct t; [exact I|intros []].
    - remember (text [x]) as T eqn:ET. intros H; injection H as <- <- _ _ <- _ _. subst T. exists [x], nothing. split; [reflexivity|]. split.
      + rewrite text_clean by (apply (clean_app_l [x] t), Hcl). apply lx_punct.
        apply is_punct_spec in E2 as [E2|E2]; [exact E2|congruence].
      + unfold ends. destruct t; [exact I|intros []]. }
  destruct (is_digit x || (x =? 45)) eqn:E3.
  { destruct (cnum (x :: t)) as [[[lex fl] r0]|] eqn:E4; [|discriminate].
    intros H; injection H as <- <- _ _ <- _ _. apply cnum_sound in E4 as (E4 & stop & H1 & H2).
    exists lex, stop. split; [exact E4|]. rewrite text_clean by (rewrite E4 in Hcl; apply (clean_app_l _ _ Hcl)).
    split; assumption. }
  destruct (Z.eqb_spec x 34) as [->|Hq]; [|discriminate].
  destruct (two_quotes t) eqn:E4.
  - apply two_quotes_spec in E4 as [u ->]. cbn [skipn].
    destruct (cblk u) as [[raw r0]|] eqn:E5; [|discriminate]. intros H; injection H as <- <- _ _ <- _ _.
    pose proof (regular_block _ Hreg) as Hsafe. destruct (cblk_sound _ _ _ Hsafe E5) as (b & -> & Hbc).
    assert (Hb : clean b) by (apply (clean_app_l b (triple ++ r0)), (clean_app_r [34%Z; 34%Z; 34%Z]), Hcl).
    assert (Hbn : noCR b) by (apply block_safe_noCR in Hsafe; apply Forall_app in Hsafe; tauto).
    exists (triple ++ b ++ triple), nothing. split; [rewrite <- !app_assoc; reflexivity|]. split.
    + rewrite block_literal by eauto using block_chars_clean, block_chars_noCR. apply lx_block, Hbc.
    + unfold ends. destruct r0; [exact I|intros []].
  - destruct (cstr t) as [[v r0]|] eqn:E5; [|discriminate]. intros H; injection H as <- <- _ _ <- _ _.
    destruct (cstr_sound _ _ _ E5) as (b & -> & Hsc).
    exists (34%Z :: b ++ [34%Z]), (fun c => b = [] /\ c = 34%Z).
    split; [cbn; rewrite <- app_assoc; reflexivity|]. split.
    + rewrite text_chars; [apply lx_string, Hsc|]. eapply string_chars_range; [exact Hsc|].
      apply clean_range. apply (clean_app_l b (34%Z :: r0)), (clean_app_r [34%Z]), Hcl.
    + unfold ends. destruct r0 as [|y r0]; [exact I|]. intros [-> ->]. discriminate.
Qed.

Lemma letter_not c : letter c -> (0 <= c < 128)%Z. Proof. unfold letter. lia. Qed.

Lemma integer_head w : integer_part w -> exists c t, w = c :: t /\ (digit c \/ c = 45%Z).
Proof.
  intros [H|(u & -> & H)]; [|eauto]. destruct (natural_head _ H) as (d & t & -> & Hd). eauto.
Qed.

Lemma ctoken_number w r lit fl ln lp : (exists c t, w = c :: t /\ (digit c \/ c = 45%Z)) ->
  cnum (w ++ r) = Some (w, fl, r) -> clean w -> lit = utf8s w ->
  exists l c ln' lp', ctoken (w ++ r) ln lp = CTok (if fl then KFloat else KInt) lit l c r ln' lp'
    /\ l = ln /\ c = (Z.of_nat lp + 1)%Z /\ ln' = ln /\ lp' = (lp + List.length w)%nat.
Proof.
  intros (x & t & -> & Hx) Hn Hcl ->. cbn [app ctoken] in *.
  replace (is_name_start x) with false by (unfold is_name_start, is_lower, is_upper, digit in *; lia).
  replace (is_punct x) with false by (unfold is_punct, digit in *; lia).
  replace (is_digit x || (x =? 45)) with true by (unfold is_digit, digit in *; lia).
  rewrite Hn. eexists _, _, _, _. rewrite text_clean by exact Hcl. split; [reflexivity|]. cbn [List.length]. repeat split; lia.
Qed.

Definition nolf (w : list Z) : Prop := Forall (fun c => c <> 10%Z) w.

(** Bookkeeping of the position over characters, for sources without CR. *)
Definition step_pos (p : nat * nat) (c : Z) : nat * nat :=
  if (c =? 10) then (S (fst p), 0%nat) else (fst p, (snd p + 1)%nat).
Definition pos_after (w : list Z) (p : nat * nat) : nat * nat := fold_left step_pos w p.

Lemma pos_after_app a b p : pos_after (a ++ b) p = pos_after b (pos_after a p).
Proof. apply fold_left_app. Qed.

Lemma pos_after_nolf w p : nolf w -> pos_after w p = (fst p, (snd p + List.length w)%nat).
Proof.
  intros H; revert p; induction H as [|c w Hc Hw IH]; intros p; cbn [pos_after fold_left List.length].
  - destruct p; cbn. f_equal. lia.
  - fold (pos_after w (step_pos p c)). rewrite IH. unfold step_pos. replace (c =? 10) with false by lia. cbn. f_equal. lia.
Qed.

Definition is_block (w : list Z) : Prop := exists b, w = triple ++ b ++ triple.

Lemma digits_nolf ds : Forall digit ds -> nolf ds.
Proof. apply Forall_impl. unfold digit. intros; lia. Qed.

Lemma natural_nolf w : natural_part w -> nolf w.
Proof. intros [|d ds H1 H2]; repeat constructor; try lia. apply digits_nolf, H2. Qed.
Lemma integer_nolf w : integer_part w -> nolf w.
Proof. intros [H|(u & -> & H)]; [|constructor; [lia|]]; apply natural_nolf, H. Qed.
Lemma frac_nolf w : fractional_part w -> nolf w.
Proof. intros (ds & -> & _ & H). constructor; [lia|apply digits_nolf, H]. Qed.
Lemma exp_nolf w : exponent_part w -> nolf w.
Proof.
  intros (x & sg & ds & -> & Hx & Hsg & _ & H). constructor; [lia|]. apply Forall_app. split; [|apply digits_nolf, H].
  destruct Hsg as [->|[->| ->]]; repeat constructor; lia.
Qed.
Lemma string_chars_nolf b v : string_chars b v -> nolf b.
Proof.
  induction 1 as [|c b v Hc Hq Hb H IH|e x b v He H IH|h1 h2 h3 h4 x1 x2 x3 x4 b v H1 H2 H3 H4 H IH].
  - constructor.
  - constructor; [lia|exact IH].
  - constructor; [lia|]. constructor; [|exact IH]. unfold escape in He. cbn [In] in He.
    repeat destruct He as [He|He]; try contradiction; injection He as <- <-; lia.
  - repeat (constructor; [try lia; match goal with H : hexdigit ?h _ |- ?h <> _ => destruct H; lia end|]). exact IH.
Qed.

Fixpoint lfs (w : list Z) : nat := match w with [] => 0 | c :: t => (if (c =? 10) then 1 else 0) + lfs t end.
Lemma lfs_app a b : lfs (a ++ b) = (lfs a + lfs b)%nat.
Proof. induction a as [|c a IH]; cbn; [reflexivity|]. rewrite IH. lia. Qed.
Lemma pos_after_line w p : fst (pos_after w p) = (fst p + lfs w)%nat.
Proof.
  revert p; induction w as [|c w IH]; intros p; cbn; [lia|]. fold (pos_after w (step_pos p c)). rewrite IH.
  unfold step_pos. destruct (c =? 10); cbn; lia.
Qed.
Lemma block_chars_lfs b v : block_chars b v -> lfs b = lfs v.
Proof. induction 1; cbn in *; lia. Qed.

Lemma lines_of_lfs v cur : noCR v -> List.length (lines_of v cur) = S (lfs v).
Proof.
  revert cur; induction v as [|c t IH]; intros cur Hv; [reflexivity|]. inversion Hv; subst. cbn [lines_of lfs].
  destruct (c =? 10). { cbn [List.length]. rewrite IH by assumption. lia. }
  replace (Z.eqb c 13) with false by lia. rewrite IH by assumption. lia.
Qed.

Lemma count_lf_text raw : clean raw -> noCR raw -> count_lf (text raw) = lfs raw.
Proof.
  intros Hc Hn. unfold count_lf. rewrite text_clean by exact Hc.
  rewrite split_lf_text by (try apply clean_scalars; assumption). rewrite map_length, lines_of_lfs by exact Hn. lia.
Qed.

(** Every lexeme followed by a permitted character is delivered by the code-point lexer, with its position. *)
Lemma ctoken_complete k w lit stop r ln lp :
  lexeme k w lit stop -> ends stop r -> clean (w ++ r) -> regular_blocks (w ++ r) ->
  exists l c ln' lp', ctoken (w ++ r) ln lp = CTok k lit l c r ln' lp' /\
    l = ln /\ (w <> [34%Z; 34%Z] \/ r <> [] -> c = (Z.of_nat lp + 1)%Z) /\
    (noCR (w ++ r) -> ln' = fst (pos_after w (ln, lp))) /\
    (~ is_block w -> w <> [34%Z; 34%Z] \/ r <> [] -> lp' = snd (pos_after w (ln, lp))).
Proof.
  intros Hl He Hcl Hreg.
  assert (N : forall fl lit', (exists c t, w = c :: t /\ (digit c \/ c = 45%Z)) -> nolf w ->
    cnum (w ++ r) = Some (w, fl, r) -> lit' = utf8s w ->
    exists l c ln' lp', ctoken (w ++ r) ln lp = CTok (if fl then KFloat else KInt) lit' l c r ln' lp' /\
    l = ln /\ (w <> [34%Z; 34%Z] \/ r <> [] -> c = (Z.of_nat lp + 1)%Z) /\
    (noCR (w ++ r) -> ln' = fst (pos_after w (ln, lp))) /\
    (~ is_block w -> w <> [34%Z; 34%Z] \/ r <> [] -> lp' = snd (pos_after w (ln, lp)))).
  { intros fl lit' Hhd Hlf Hn Elit.
    destruct (ctoken_number w r lit' fl ln lp Hhd Hn (clean_app_l _ _ Hcl) Elit) as (l & c & ln' & lp' & E & -> & -> & -> & ->).
    eexists _, _, _, _. split; [exact E|]. rewrite pos_after_nolf by exact Hlf. cbn [fst snd]. auto. }
  destruct Hl as [c Hc| |c w Hc Hw|w Hw|w f Hw Hf|w e Hw Hf|w f e Hw Hf Hx|b v Hb|b raw Hb].
  - (* punctuator *)
    cbn [app ctoken]. assert (Hcr : (0 <= c < 128)%Z) by (unfold punctuator in Hc; cbn in Hc; lia).
    replace (is_name_start c) with false by (unfold is_name_start, is_lower, is_upper; unfold punctuator in Hc; cbn in Hc; lia).
    rewrite (proj2 (is_punct_spec c) (or_introl Hc)).
    replace (c =? 46) with false by (unfold punctuator in Hc; cbn in Hc; lia).
    rewrite text_clean by (apply (clean_app_l [c] r), Hcl).
    eexists _, _, _, _. split; [reflexivity|]. rewrite pos_after_nolf by (constructor; [unfold punctuator in Hc; cbn in Hc; lia|constructor]).
    cbn [fst snd List.length]. auto.
  - (* spread *)
    cbn [app ctoken]. change (is_name_start 46) with false. change (is_punct 46) with true.
    change (46 =? 46) with true. cbn [andb skipn]. eexists _, _, _, _. split; [reflexivity|]. cbn. repeat split; auto. intros; lia.
  - (* name *)
    cbn [app ctoken]. rewrite (proj2 (is_name_start_spec c) Hc).
    rewrite span_complete.
    + rewrite text_clean by (apply (clean_app_l (c :: w) r), Hcl). eexists _, _, _, _. split; [reflexivity|].
      rewrite pos_after_nolf.
      * cbn [fst snd List.length]. repeat split; auto. intros; lia.
      * constructor; [unfold letter in Hc; lia|]. eapply Forall_impl; [|exact Hw]. unfold name_char, letter, digit. cbn. intros; lia.
    + apply (Forall_bool _ _ _ is_name_cont_spec), Hw.
    + unfold ends in He. destruct r as [|y r]; [exact I|].
      destruct (is_name_cont y) eqn:E; [exfalso; apply He, is_name_cont_spec, E|reflexivity].
  - apply (N false); [apply integer_head, Hw|apply integer_nolf, Hw|apply cnum_int; assumption|reflexivity].
  - apply (N true); [|apply Forall_app; split; [apply integer_nolf, Hw|apply frac_nolf, Hf]|apply cnum_frac; assumption|reflexivity].
    destruct (integer_head _ Hw) as (x & t & -> & Hx). eexists _, _. split; [reflexivity|exact Hx].
  - apply (N true); [|apply Forall_app; split; [apply integer_nolf, Hw|apply exp_nolf, Hf]|apply cnum_exp; assumption|reflexivity].
    destruct (integer_head _ Hw) as (x & t & -> & Hx). eexists _, _. split; [reflexivity|exact Hx].
  - apply (N true); [| |apply cnum_both; assumption|reflexivity].
    + destruct (integer_head _ Hw) as (x & t & -> & Hx'). eexists _, _. split; [reflexivity|exact Hx'].
    + apply Forall_app; split; [apply integer_nolf, Hw|]. apply Forall_app; split; [apply frac_nolf, Hf|apply exp_nolf, Hx].
  - (* string *)
    clear N. cbn [app]. rewrite <- app_assoc. cbn [app ctoken].
    change (is_name_start 34) with false. change (is_punct 34) with false. change (is_digit 34 || (34 =? 45)) with false.
    change (34 =? 34) with true. cbn beta iota.
    assert (E2 : two_quotes (b ++ 34%Z :: r) = false).
    { destruct (two_quotes (b ++ 34%Z :: r)) eqn:E; [|reflexivity]. exfalso.
      apply two_quotes_spec in E as [u Hu]. destruct Hb as [|c b v Hc Hq Hbs Hb|e x b v Hes Hb|].
      - cbn in Hu. injection Hu as ->. cbn in He. apply He. auto.
      - cbn in Hu. injection Hu as -> _. congruence.
      - cbn in Hu. discriminate.
      - cbn in Hu. discriminate. }
    rewrite E2, (cstr_complete b v r Hb).
    assert (Hbc : clean b).
    { apply clean_app_l in Hcl. apply Forall_inv_tail in Hcl. apply (clean_app_l _ _ Hcl). }
    rewrite text_chars by (eapply string_chars_range; [exact Hb|apply clean_range, Hbc]).
    eexists _, _, _, _. split; [reflexivity|].
    rewrite pos_after_nolf.
    2:{ constructor; [lia|]. apply Forall_app. split; [eapply string_chars_nolf, Hb|repeat constructor; lia]. }
    cbn [fst snd List.length]. rewrite !app_length. cbn [List.length].
    assert (Hlen : 34%Z :: b ++ [34%Z] <> [34%Z; 34%Z] \/ r <> [] -> (2 <= List.length b + S (List.length r))%nat).
    { intros [Hn|Hn]; [|destruct r; [congruence|cbn; lia]]. destruct b; [exfalso; apply Hn; reflexivity|cbn; lia]. }
    split; [reflexivity|]. split; [intros H; specialize (Hlen H); lia|]. split; [reflexivity|].
    intros _ H; specialize (Hlen H); lia.
  - (* block string *)
    clear N. unfold triple in *. cbn [app] in *. rewrite <- app_assoc in *. cbn [app] in *.
    pose proof (regular_block _ Hreg) as Hsafe.
    change (b ++ 34%Z :: 34%Z :: 34%Z :: r) with (b ++ triple ++ r) in *.
    assert (Hbcl : clean b) by (apply (clean_app_l b (triple ++ r)), (clean_app_r [34%Z; 34%Z; 34%Z]), Hcl).
    assert (Hbn : noCR b) by (apply block_safe_noCR in Hsafe; apply Forall_app in Hsafe; tauto).
    cbn [ctoken]. change (is_name_start 34) with false. change (is_punct 34) with false. change (is_digit 34 || (34 =? 45)) with false.
    change (34 =? 34) with true. cbn beta iota. cbn [two_quotes skipn]. change ((34 =? 34) && (34 =? 34)) with true. cbn beta iota.
    rewrite (cblk_complete b raw r Hb Hsafe).
    rewrite block_literal by eauto using block_chars_clean, block_chars_noCR.
    eexists _, _, _, _. split; [reflexivity|]. split; [reflexivity|]. split; [reflexivity|]. split.
    + intros _. rewrite pos_after_line. cbn [fst]. cbn [lfs]. change (34 =? 10) with false.
      rewrite lfs_app. cbn. rewrite (block_chars_lfs _ _ Hb).
      rewrite count_lf_text by eauto using block_chars_clean, block_chars_noCR. lia.
    + intros Hnb. exfalso. apply Hnb. exists b. reflexivity.
Qed.

(** ** Ignored text. *)
Definition significant (r : list Z) : Prop :=
  match r with c :: _ => ~ ignored_char c /\ c <> 35%Z | [] => True end.

Lemma ignored_b c : ignored_char c <-> (c =? c_cr) || (c =? c_lf) || ignorable c = true.
Proof. unfold ignored_char, ignorable, c_cr, c_lf, c_tab, c_ws, c_com, c_bom. lia. Qed.

Definition skip_ok (cs ign r : list Z) (m : mode) : Prop :=
  cs = ign ++ r /\ significant r /\
  match m with
  | Norm _ | ComCR => forall pre ts rest, lexing (pre ++ ign) r ts rest -> lexing pre cs ts rest
  | Com => exists b i2, ign = b ++ i2 /\ Forall (fun c => ~ line_terminator c) b /\ line_end (i2 ++ r) /\
        forall pre ts rest, lexing (pre ++ i2) r ts rest -> lexing pre (i2 ++ r) ts rest
  end.

Lemma skip_sound cs m ln lp r ln' lp' : skip cs m ln lp = (r, ln', lp') ->
  exists ign, skip_ok cs ign r m /\
    (noCR cs -> match m with Norm false | Com => (ln', lp') = pos_after ign (ln, lp) | _ => True end).
Proof.
  revert m ln lp; induction cs as [|c t IH]; intros m ln lp H.
  { cbn in H. injection H as <- <- <-. exists []. split.
    - split; [reflexivity|]. split; [exact I|]. destruct m.
      + intros pre ts rest. rewrite app_nil_r. auto.
      + exists [], []. split; [reflexivity|]. split; [constructor|]. split; [exact I|].
        intros pre ts rest. rewrite app_nil_r. auto.
      + intros pre ts rest. rewrite app_nil_r. auto.
    - intros _. destruct m as [[]| |]; auto. }
  (* one ignored character, then [Norm] *)
  assert (I1 : forall ign wc, ignored_char c -> skip_ok t ign r (Norm wc) ->
     forall wc', skip_ok (c :: t) (c :: ign) r (Norm wc')).
  { intros ign wc Hc (E & Hs & Hl) wc'. split; [cbn; f_equal; exact E|]. split; [exact Hs|]. intros pre ts rest Hx.
    apply lg_ignored; [exact Hc|]. apply Hl. rewrite <- app_assoc. exact Hx. }
  assert (Hcom : forall ln lp, skip t Com ln lp = (r, ln', lp') -> c = 35%Z ->
     exists ign', skip_ok (c :: t) (c :: ign') r (Norm false) /\
        (noCR t -> (ln', lp') = pos_after ign' (ln, lp))).
  { intros ln0 lp0 Hk ->. destruct (IH _ _ _ Hk) as (ign & (E & Hs & b & i2 & Ei & Hb & Hle & Hl) & Hp).
    exists ign. split; [|exact Hp].
    split; [cbn; f_equal; exact E|]. split; [exact Hs|]. intros pre ts rest Hx. subst ign t. rewrite <- app_assoc.
    apply lg_comment; [exact Hb|exact Hle|]. apply Hl. rewrite <- !app_assoc in *. exact Hx. }
  assert (Hnorm : forall wc : bool,
     (if c =? c_cr then skip t (Norm true) (S ln) 0
        else if c =? c_lf then
          (if wc then skip t (Norm wc) ln (lp + 1) else skip t (Norm wc) (S ln) 0)
        else if ignorable c then skip t (Norm wc) ln (lp + 1)
        else if c =? 35 then skip t Com ln (lp + 1)
        else (c :: t, ln, lp)) = (r, ln', lp') ->
     exists ign, (forall wc', skip_ok (c :: t) ign r (Norm wc')) /\
        (noCR (c :: t) -> wc = false -> (ln', lp') = pos_after ign (ln, lp))).
  { intros wc Hk. destruct (Z.eqb_spec c c_cr) as [Ecr|Hcr].
    { destruct (IH _ _ _ Hk) as (ign & Hok & _). exists (c :: ign). split; [apply (I1 ign true); [|exact Hok]|].
      - apply ignored_b. unfold c_cr in *. subst. reflexivity.
      - intros Hn. exfalso. apply Forall_inv in Hn. unfold c_cr in Ecr. lia. }
    destruct (Z.eqb_spec c c_lf) as [Elf|Hlf].
    { assert (Hig : ignored_char c) by (apply ignored_b; unfold c_cr, c_lf in *; subst; reflexivity).
      destruct wc.
      - destruct (IH _ _ _ Hk) as (ign & Hok & _). exists (c :: ign). split; [apply (I1 ign true); assumption|discriminate].
      - destruct (IH _ _ _ Hk) as (ign & Hok & Hp). exists (c :: ign). split; [apply (I1 ign false); assumption|].
        intros Hn _. inversion Hn; subst. rewrite (Hp ltac:(assumption)). cbn. reflexivity. }
    destruct (ignorable c) eqn:Eig.
    { assert (Hig : ignored_char c) by (apply ignored_b; rewrite Eig, orb_true_r; reflexivity).
      destruct (IH _ _ _ Hk) as (ign & Hok & Hp). exists (c :: ign). split; [apply (I1 ign wc); assumption|].
      intros Hn ->. inversion Hn; subst. rewrite (Hp ltac:(assumption)). cbn. unfold step_pos at 2.
      replace (c =? 10) with false by (unfold c_lf in Hlf; lia). reflexivity. }
    destruct (Z.eqb_spec c 35) as [->|H35].
    { destruct (Hcom _ _ Hk eq_refl) as (ign' & Hok & Hp). exists (35%Z :: ign').
      split; [intros wc'; exact Hok|]. intros Hn _. inversion Hn; subst. rewrite (Hp ltac:(assumption)). reflexivity. }
    injection Hk as <- <- <-. exists []. split; [|reflexivity]. intros wc'. split; [reflexivity|]. split.
    - cbn. split; [|exact H35]. intros Hi. apply ignored_b in Hi. rewrite Eig in Hi. unfold c_cr, c_lf in *. lia.
    - intros pre ts rest. rewrite app_nil_r. auto. }
  destruct m as [wc| |]; cbn [skip] in H.
  - destruct (Hnorm wc H) as (ign & Hok & Hp). exists ign. split; [apply Hok|]. intros Hn. destruct wc; auto.
  - (* inside a comment *)
    assert (I2 : forall ign wc, ignored_char c -> line_terminator c -> skip_ok t ign r (Norm wc) -> skip_ok (c :: t) (c :: ign) r Com).
    { intros ign wc Hi Hlt Hok. destruct (I1 ign wc Hi Hok wc) as (E & Hs & Hl). split; [exact E|]. split; [exact Hs|].
      exists [], (c :: ign). split; [reflexivity|]. split; [constructor|]. split; [exact Hlt|]. rewrite <- E. exact Hl. }
    destruct (Z.eqb_spec c c_cr) as [Ecr|Hcr].
    { destruct (IH _ _ _ H) as (ign & Hok & _). exists (c :: ign). split.
      - apply (I2 ign true); [apply ignored_b; unfold c_cr in *; subst; reflexivity|right; exact Ecr|exact Hok].
      - intros Hn. exfalso. apply Forall_inv in Hn. unfold c_cr in Ecr. lia. }
    destruct (Z.eqb_spec c c_lf) as [Elf|Hlf].
    { destruct (IH _ _ _ H) as (ign & Hok & Hp). exists (c :: ign). split.
      - apply (I2 ign false); [apply ignored_b; unfold c_cr, c_lf in *; subst; reflexivity|left; exact Elf|exact Hok].
      - intros Hn. inversion Hn; subst. rewrite (Hp ltac:(assumption)). reflexivity. }
    destruct (IH _ _ _ H) as (ign & (E & Hs & b & i2 & Ei & Hb & Hle & Hl) & Hp).
    exists (c :: ign). split.
    + split; [cbn; f_equal; exact E|]. split; [exact Hs|]. exists (c :: b), i2. split; [cbn; f_equal; exact Ei|].
      split; [constructor; [unfold line_terminator, c_cr, c_lf in *; lia|exact Hb]|]. split; [exact Hle|exact Hl].
    + intros Hn. inversion Hn; subst. rewrite (Hp ltac:(assumption)). cbn. unfold step_pos at 2.
      replace (c =? 10) with false by (unfold c_lf in Hlf; lia). reflexivity.
  - (* after the CR that ends a comment *)
    destruct (Z.eqb_spec c c_lf) as [Elf|Hlf].
    { destruct (IH _ _ _ H) as (ign & Hok & Hp). exists (c :: ign). split; [|auto].
      refine (I1 ign false _ Hok false). apply ignored_b; unfold c_cr, c_lf in *; subst; reflexivity. }
    destruct (Hnorm false H) as (ign & Hok & Hp). exists ign. split; [|auto]. exact (Hok false).
Qed.

(** ** Whole sources. *)
Lemma lexeme_nonempty k w lit stop : lexeme k w lit stop -> w <> [].
Proof.
  destruct 1; try discriminate.
  - destruct (integer_head _ H) as (x & t & -> & _). discriminate.
  - destruct (integer_head _ H) as (x & t & -> & _). discriminate.
  - destruct (integer_head _ H) as (x & t & -> & _). discriminate.
  - destruct (integer_head _ H) as (x & t & -> & _). discriminate.
Qed.

Lemma lexeme_head k c w lit stop : lexeme k (c :: w) lit stop -> ~ ignored_char c /\ c <> 35%Z.
Proof.
  assert (Q : forall v u c w, integer_part v -> v ++ u = c :: w -> ~ ignored_char c /\ c <> 35%Z).
  { intros v u c0 w0 H E. destruct (integer_head _ H) as (x & t & -> & Hx). cbn in E. injection E as -> _.
    unfold ignored_char, digit in *. lia. }
  intros H. remember (c :: w) as cw eqn:E.
  destruct H; try (eapply Q; eassumption).
  - injection E as -> _. unfold punctuator in H. cbn in H. unfold ignored_char. lia.
  - injection E as <- _. unfold ignored_char. lia.
  - injection E as -> _. unfold letter, ignored_char in *. lia.
  - apply (Q w0 [] c w H). rewrite app_nil_r. exact E.
  - injection E as <- _. unfold ignored_char. lia.
  - cbn in E. injection E as <- _. unfold ignored_char. lia.
Qed.

Lemma ctoken_eof cs ln lp l c : ctoken cs ln lp = CEof l c -> cs = [] /\ l = ln /\ c = (Z.of_nat lp + 1)%Z.
Proof.
  destruct cs as [|x t]; cbn [ctoken]; [intros H; injection H as <- <-; auto|].
  destruct (is_name_start x); [destruct (span is_name_cont t); discriminate|].
  destruct (is_punct x).
  { destruct (x =? 46); [|discriminate].
    destruct (match t with x :: y :: _ => (x =? 46) && (y =? 46) | _ => false end); discriminate. }
  destruct (is_digit x || (x =? 45)); [destruct (cnum (x :: t)) as [[[? ?] ?]|]; discriminate|].
  destruct (x =? 34); [|discriminate].
  destruct (two_quotes t); [destruct (cblk (skipn 2 t)) as [[? ?]|]|destruct (cstr t) as [[? ?]|]]; discriminate.
Qed.

(** an unfinished quote at the very end of the source *)
Definition dangling_quote (r : list Z) : Prop := r = [34%Z] \/ exists x, r = [34%Z; x].

Lemma ctoken_ill cs ln lp l c : ctoken cs ln lp = CIll l c ->
  cs <> [] /\ l = ln /\ (~ dangling_quote cs -> c = (Z.of_nat lp + 1)%Z).
Proof.
  destruct cs as [|x t]; cbn [ctoken]; [discriminate|].
  assert (Q : forall l' c', CIll ln (Z.of_nat lp + 1) = CIll l' c' ->
     x :: t <> [] /\ l' = ln /\ (~ dangling_quote (x :: t) -> c' = (Z.of_nat lp + 1)%Z)).
  { intros l' c' H. injection H as <- <-. split; [discriminate|]. auto. }
  destruct (is_name_start x); [destruct (span is_name_cont t); discriminate|].
  destruct (is_punct x).
  { destruct (x =? 46); [|discriminate].
    destruct (match t with x :: y :: _ => (x =? 46) && (y =? 46) | _ => false end); [discriminate|apply Q]. }
  destruct (is_digit x || (x =? 45)); [destruct (cnum (x :: t)) as [[[? ?] ?]|]; [discriminate|apply Q]|].
  destruct (Z.eqb_spec x 34) as [->|_]; [|apply Q].
  destruct (two_quotes t); [destruct (cblk (skipn 2 t)) as [[? ?]|]; [discriminate|apply Q]|].
  destruct (cstr t) as [[? ?]|]; [discriminate|]. intros H. injection H as <- <-.
  split; [discriminate|]. split; [reflexivity|]. intros Hd.
  destruct t as [|y [|z t]]; [exfalso; apply Hd; left; reflexivity|exfalso; apply Hd; right; eexists; reflexivity|cbn; lia].
Qed.

Lemma pos_after_fst w p q : fst p = fst q -> fst (pos_after w p) = fst (pos_after w q).
Proof. intros H. rewrite !pos_after_line, H. reflexivity. Qed.

Definition row := (kind * bytes * nat * Z)%type.
Definition row_is (t : row) (k : stok) : Prop := fst (fst t) = (skind k, slit k).
Definition row_line (t : row) (k : stok) : Prop := snd (fst t) = fst (pos_after (sbefore k) (1, 0)%nat).
Definition row_col (t : row) (k : stok) : Prop := snd t = (Z.of_nat (snd (pos_after (sbefore k) (1, 0)%nat)) + 1)%Z.
Definition ends_dq (cs : list Z) : Prop := exists a, cs = a ++ [34%Z; 34%Z].

Lemma noCR_app_r a b : noCR (a ++ b) -> noCR b.
Proof. intros H. apply Forall_app in H. tauto. Qed.

Lemma ends_dq_app a b : ends_dq b -> ends_dq (a ++ b).
Proof. intros (x & ->). exists (a ++ x). apply app_assoc. Qed.

(** where the code-point lexer stops *)
Fixpoint clast (f : nat) (cs : list Z) (ln lp : nat) : list Z :=
  match f with
  | O => cs
  | S f =>
      let '(r, ln1, lp1) := skip cs (Norm false) ln lp in
      match ctoken r ln1 lp1 with
      | CEof _ _ | CIll _ _ => r
      | CTok _ _ _ _ r2 ln2 lp2 => clast f r2 ln2 lp2
      end
  end.

Lemma clex_main f : forall cs pre ln lp, clean cs -> regular_blocks cs -> (List.length cs < f)%nat ->
  exists ts lk ll lc toks body rest,
    clex f cs ln lp = ts ++ [(lk, [], ll, lc)] /\ lexing pre cs toks rest /\ cs = body ++ rest /\
    Forall2 row_is ts toks /\ (lk = KEOF /\ rest = [] \/ lk = KIllegal /\ stuck rest) /\
    (noCR cs -> ln = fst (pos_after pre (1, 0)%nat) ->
       Forall2 row_line ts toks /\ ll = fst (pos_after (pre ++ body) (1, 0)%nat)) /\
    (noCR cs -> ~ contains triple cs -> ~ ends_dq cs -> (ln, lp) = pos_after pre (1, 0)%nat ->
       Forall2 row_col ts toks /\
       (~ dangling_quote rest -> lc = (Z.of_nat (snd (pos_after (pre ++ body) (1, 0)%nat)) + 1)%Z)) /\
    rest = clast f cs ln lp.
Proof.
  induction f as [|f IH]; intros cs pre ln lp Hcl Hreg Hf; [lia|].
  cbn [clex clast]. unfold cscan. destruct (skip cs (Norm false) ln lp) as [[r ln1] lp1] eqn:Es.
  destruct (skip_sound _ _ _ _ _ _ _ Es) as (ign & (Ecs & Hsig & Hlx) & Hpos).
  assert (Hclr : clean r) by (rewrite Ecs in Hcl; apply (clean_app_r _ _ Hcl)).
  assert (Hregr : regular_blocks r) by (rewrite Ecs in Hreg; apply (regular_app _ _ Hreg)).
  destruct (ctoken r ln1 lp1) as [l c|l c|k lit l c r2 ln2 lp2] eqn:Et.
  - destruct (ctoken_eof _ _ _ _ _ Et) as (-> & -> & ->).
    exists [], KEOF, ln1, (Z.of_nat lp1 + 1)%Z, [], ign, []. split; [reflexivity|].
    split; [apply Hlx; constructor|]. split; [exact Ecs|]. split; [constructor|]. split; [left; auto|].
    split; [|split; [|reflexivity]]; intros Hn.
    + intros ->. split; [constructor|]. specialize (Hpos Hn). cbn in Hpos.
      rewrite pos_after_app. change ln1 with (fst (ln1, lp1)). rewrite Hpos. apply pos_after_fst. reflexivity.
    + intros _ _ Hp. split; [constructor|]. intros _. specialize (Hpos Hn). cbn in Hpos.
      rewrite pos_after_app, <- Hp, <- Hpos. reflexivity.
  - destruct (ctoken_ill _ _ _ _ _ Et) as (Hne & -> & Hc).
    exists [], KIllegal, ln1, c, [], ign, r. split; [reflexivity|].
    split; [apply Hlx; constructor|]. split; [exact Ecs|]. split; [constructor|]. split.
    { right. split; [reflexivity|]. split; [exact Hne|]. split.
      - intros c0 t0 ->. exact Hsig.
      - intros k w lit stop t -> Hlex He. 
        destruct (ctoken_complete _ _ _ _ _ ln1 lp1 Hlex He Hclr Hregr) as (? & ? & ? & ? & E & _). congruence. }
    split; [|split; [|reflexivity]]; intros Hn.
    + intros ->. split; [constructor|]. specialize (Hpos Hn). cbn in Hpos.
      rewrite pos_after_app. change ln1 with (fst (ln1, lp1)). rewrite Hpos. apply pos_after_fst. reflexivity.
    + intros _ _ Hp. split; [constructor|]. intros Hd. specialize (Hpos Hn). cbn in Hpos.
      rewrite pos_after_app, <- Hp, <- Hpos. apply Hc, Hd.
  - destruct (ctoken_sound _ _ _ _ _ _ _ _ _ _ Hclr Hregr Et) as (w & stop & Er & Hlex & He).
    subst r.
    destruct (ctoken_complete _ _ _ _ _ ln1 lp1 Hlex He Hclr Hregr) as (l' & c' & ln' & lp' & E & P1 & P2 & P3 & P4).
    rewrite Et in E. remember lit as lit0 eqn:El. injection E as <- <- <- <-.
    pose proof (lexeme_nonempty _ _ _ _ Hlex) as Hw.
    destruct (IH r2 ((pre ++ ign) ++ w) ln2 lp2) as (ts & lk & ll & lc & toks & body & rest & I1 & I2 & I3 & I4 & I5 & I6 & I7 & I8).
    { apply (clean_app_r _ _ Hclr). } { apply (regular_app _ _ Hregr). }
    { rewrite Ecs, !app_length in Hf. destruct w; [congruence|cbn in Hf; lia]. }
    exists ((k, lit, l, c) :: ts), lk, ll, lc, (mkStok k lit (pre ++ ign) w :: toks), (ign ++ w ++ body), rest.
    split; [rewrite El, I1; reflexivity|].
    split; [apply Hlx; subst lit0; eapply lg_token; eassumption|].
    split; [rewrite Ecs, I3, !app_assoc; reflexivity|].
    split; [constructor; [reflexivity|exact I4]|]. split; [exact I5|].
    split; [|split; [|exact I8]].
    + intros Hn ->. specialize (Hpos Hn). cbn in Hpos.
      assert (Hnw : noCR (w ++ r2)) by (rewrite Ecs in Hn; apply (noCR_app_r _ _ Hn)).
      assert (Hn1 : ln1 = fst (pos_after (pre ++ ign) (1, 0)%nat)).
      { rewrite pos_after_app. change ln1 with (fst (ln1, lp1)). rewrite Hpos. apply pos_after_fst. reflexivity. }
      destruct (I6 (noCR_app_r _ _ Hnw)) as (J1 & J2).
      { rewrite (P3 Hnw). rewrite (pos_after_app (pre ++ ign)). apply pos_after_fst. exact Hn1. }
      split; [constructor; [|exact J1]|].
      * unfold row_line. cbn [fst snd sbefore]. congruence.
      * rewrite J2, <- !app_assoc. reflexivity.
    + intros Hn Ht Hd Hp. specialize (Hpos Hn). cbn in Hpos.
      assert (Hnw : noCR (w ++ r2)) by (rewrite Ecs in Hn; apply (noCR_app_r _ _ Hn)).
      assert (Hn1 : (ln1, lp1) = pos_after (pre ++ ign) (1, 0)%nat).
      { rewrite pos_after_app, <- Hp. exact Hpos. }
      assert (Hdq : w <> [34%Z; 34%Z] \/ r2 <> []).
      { destruct r2; [left|right; discriminate]. intros ->. apply Hd. exists ign. rewrite Ecs, app_nil_r. reflexivity. }
      assert (Hnb : ~ is_block w).
      { intros (b & ->). apply Ht. exists ign, (b ++ triple ++ r2). rewrite Ecs, <- !app_assoc. reflexivity. }
      destruct (I7 (noCR_app_r _ _ Hnw)) as (J1 & J2).
      { intros Hx. apply Ht. rewrite Ecs. apply contains_app_r, contains_app_r, Hx. }
      { intros Hx. apply Hd. rewrite Ecs. apply ends_dq_app, ends_dq_app, Hx. }
      { rewrite (P3 Hnw), (P4 Hnb Hdq). rewrite (pos_after_app (pre ++ ign)), <- Hn1. symmetry. apply surjective_pairing. }
      split; [constructor; [|exact J1]|].
      * unfold row_col. cbn [snd sbefore]. rewrite <- Hn1. apply P2, Hdq.
      * intros Hdr. rewrite (J2 Hdr), <- !app_assoc. reflexivity.
Qed.

(** ** Uniqueness of the tokenisation. *)
Definition final (rest : list Z) : Prop := rest = [] \/ stuck rest.

Lemma comment_unique b1 t1 b2 t2 :
  Forall (fun c => ~ line_terminator c) b1 -> line_end t1 ->
  Forall (fun c => ~ line_terminator c) b2 -> line_end t2 -> b1 ++ t1 = b2 ++ t2 -> b1 = b2 /\ t1 = t2.
Proof.
  revert b2; induction b1 as [|x b1 IH]; intros b2 H1 L1 H2 L2 E.
  - destruct b2 as [|y b2]; [auto|]. cbn in E. subst t1. inversion H2; subst. contradiction.
  - destruct b2 as [|y b2].
    + cbn in E. subst t2. inversion H1; subst. contradiction.
    + cbn in E. injection E as -> E. inversion H1; subst. inversion H2; subst.
      destruct (IH b2) as [-> ->]; auto.
Qed.

Lemma token_unique k1 w1 l1 s1 r1 k2 w2 l2 s2 r2 :
  lexeme k1 w1 l1 s1 -> ends s1 r1 -> lexeme k2 w2 l2 s2 -> ends s2 r2 -> w1 ++ r1 = w2 ++ r2 ->
  clean (w1 ++ r1) -> regular_blocks (w1 ++ r1) -> k1 = k2 /\ w1 = w2 /\ l1 = l2 /\ r1 = r2.
Proof.
  intros L1 E1 L2 E2 E Hc Hr.
  destruct (ctoken_complete _ _ _ _ _ 1 0 L1 E1 Hc Hr) as (? & ? & ? & ? & Q1 & _).
  rewrite E in *.
  destruct (ctoken_complete _ _ _ _ _ 1 0 L2 E2 Hc Hr) as (? & ? & ? & ? & Q2 & _).
  rewrite Q1 in Q2. remember l1 as a1. remember l2 as a2. injection Q2; intros. subst.
  repeat split; auto. eapply app_inv_tail. exact E.
Qed.

Lemma final_not_ignored c t : final (c :: t) -> ~ ignored_char c /\ c <> 35%Z.
Proof. intros [H|(_ & H & _)]; [discriminate|]. apply (H c t eq_refl). Qed.

Lemma lexing_unique pre cs ts1 r1 : lexing pre cs ts1 r1 -> final r1 -> clean cs -> regular_blocks cs ->
  forall ts2 r2, lexing pre cs ts2 r2 -> final r2 -> ts1 = ts2 /\ r1 = r2.
Proof.
  induction 1 as [pre cs|pre c t ts rest Hi H IH|pre b t ts rest Hb Hle H IH|pre k w lit stop t ts rest Hlex He H IH];
    intros F1 Hc Hr ts2 r2 H2 F2.
  - inversion H2; subst; auto.
    + destruct (final_not_ignored _ _ F1); contradiction.
    + destruct (final_not_ignored _ _ F1); congruence.
    + exfalso. destruct F1 as [F1|(_ & _ & F1)].
      * apply app_eq_nil in F1 as [-> _]. eapply lexeme_nonempty; eauto.
      * eapply F1; eauto.
  - assert (H2' : exists cs, cs = c :: t /\ lexing pre cs ts2 r2) by eauto. clear H2.
    destruct H2' as (cs & E & H2). destruct H2.
    + subst cs. destruct (final_not_ignored _ _ F2); contradiction.
    + injection E as -> ->. apply IH; auto. * apply (clean_app_r [c] t Hc). * apply (regular_app [c] t Hr).
    + injection E as <- E. destruct Hi as [?|[?|[?|[?|[?|?]]]]]; discriminate.
    + destruct w as [|x w]; [exfalso; eapply lexeme_nonempty; eauto|]. cbn in E. injection E as -> _.
      destruct (lexeme_head _ _ _ _ _ H0); contradiction.
  - assert (H2' : exists cs, cs = 35%Z :: b ++ t /\ lexing pre cs ts2 r2) by eauto. clear H2.
    destruct H2' as (cs & E & H2). destruct H2.
    + subst cs. destruct (final_not_ignored _ _ F2); congruence.
    + injection E as -> ->. destruct H0 as [?|[?|[?|[?|[?|?]]]]]; discriminate.
    + injection E as E. destruct (comment_unique b0 t0 b t) as [-> ->]; auto.
      apply IH; auto. * apply (clean_app_r (35%Z :: b) t Hc). * apply (regular_app (35%Z :: b) t Hr).
    + destruct w as [|x w]; [exfalso; eapply lexeme_nonempty; eauto|]. cbn in E. injection E as -> E.
      destruct (lexeme_head _ _ _ _ _ H0); congruence.
  - assert (H2' : exists cs, cs = w ++ t /\ lexing pre cs ts2 r2) by eauto. clear H2.
    destruct H2' as (cs & E & H2). destruct H2.
    + exfalso. subst cs. destruct F2 as [F2|(_ & _ & F2)].
      * apply app_eq_nil in F2 as [-> _]. eapply lexeme_nonempty; eauto.
      * eapply F2; eauto.
    + destruct w as [|x w]; [exfalso; eapply lexeme_nonempty; eauto|]. cbn in E. injection E as -> _.
      destruct (lexeme_head _ _ _ _ _ Hlex); contradiction.
    + destruct w as [|x w]; [exfalso; eapply lexeme_nonempty; eauto|]. cbn in E. injection E as <- E.
      destruct (lexeme_head _ _ _ _ _ Hlex); congruence.
    + symmetry in E. destruct (token_unique _ _ _ _ _ _ _ _ _ _ Hlex He H0 H1 E Hc Hr) as (-> & -> & -> & ->).
      destruct (IH F1) with (ts2 := ts0) (r2 := rest0) as [-> ->]; auto.
      * apply (clean_app_r w0 t0 Hc). * apply (regular_app w0 t0 Hr).
Qed.

(** ** The main theorem about [lex_all]. *)
Lemma utf8_length c : (1 <= List.length (utf8 c))%nat.
Proof. unfold utf8. repeat (match goal with |- context [if ?b then _ else _] => destruct b end); cbn; lia. Qed.

Lemma utf8s_length cs : (List.length cs <= List.length (utf8s cs))%nat.
Proof.
  induction cs as [|c cs IH]; [cbn; lia|]. cbn [utf8s flat_map List.length]. rewrite app_length.
  pose proof (utf8_length c). unfold utf8s in IH. lia.
Qed.

Definition tok_is (t : token) (k : stok) : Prop := tkind t = skind k /\ tlit t = slit k.

Definition tok_at (t : token) (k : stok) : Prop := tline t = line_of (sbefore k).
Definition tok_col (t : token) (k : stok) : Prop := tcol t = Z.of_nat (column_of (sbefore k)).

Lemma line_of_pos pre p : noCR pre -> (fst p + line_count pre)%nat = fst (pos_after pre p).
Proof.
  intros H. rewrite pos_after_line. f_equal. induction H as [|c pre Hc Hp IH]; [reflexivity|].
  cbn [line_count lfs]. destruct (c =? 10)%Z; [lia|].
  replace (c =? 13)%Z with false by lia. exact IH.
Qed.

Lemma column_of_pos pre n cur : noCR pre -> List.length (last_line pre cur) = snd (pos_after pre (n, List.length cur)).
Proof.
  revert n cur; induction pre as [|c pre IH]; intros n cur H; [reflexivity|]. inversion H; subst.
  cbn [last_line pos_after fold_left]. unfold step_pos at 2. replace (c =? 13)%Z with false by lia.
  destruct (c =? 10)%Z; cbn [orb fst snd].
  - rewrite (IH (S n)) by assumption. reflexivity.
  - rewrite (IH n) by assumption. rewrite app_length. reflexivity.
Qed.

Lemma lexing_before pre cs ts rest : lexing pre cs ts rest ->
  exists body, cs = body ++ rest /\ Forall (fun k => exists u, pre ++ cs = sbefore k ++ ssrc k ++ u) ts.
Proof.
  induction 1 as [pre cs|pre c t ts rest Hi H IH|pre b t ts rest Hb Hle H IH|pre k w lit stop t ts rest Hlex He H IH].
  - exists []. split; [reflexivity|constructor].
  - destruct IH as (body & -> & IH). exists (c :: body). split; [reflexivity|].
    rewrite <- app_assoc in IH. exact IH.
  - destruct IH as (body & -> & IH). exists (35%Z :: b ++ body). split; [cbn; rewrite <- app_assoc; reflexivity|].
    rewrite <- app_assoc in IH. exact IH.
  - destruct IH as (body & -> & IH). exists (w ++ body). split; [rewrite <- app_assoc; reflexivity|].
    constructor; [eexists; reflexivity|]. rewrite <- app_assoc in IH. exact IH.
Qed.

Definition lex_rows (ts : list token) (rs : list row) : Prop := map strip ts = rs.

Lemma lexing_noCR pre cs ts rest : lexing pre cs ts rest -> noCR (pre ++ cs) -> Forall (fun k => noCR (sbefore k)) ts.
Proof.
  intros H Hn. destruct (lexing_before _ _ _ _ H) as (_ & _ & Hf). eapply Forall_impl; [|exact Hf].
  intros k (u & E). rewrite E in Hn. apply Forall_app in Hn. tauto.
Qed.

Lemma Forall2_with {A C} (R S : A -> C -> Prop) (P : C -> Prop) l m :
  Forall2 R l m -> Forall P m -> (forall a c, R a c -> P c -> S a c) -> Forall2 S l m.
Proof. intros H; revert P; induction H; intros P Hp Hs; inversion Hp; subst; constructor; eauto. Qed.

Lemma Forall2_map_l {A C D} (f : A -> C) (R : C -> D -> Prop) l m :
  Forall2 R (map f l) m <-> Forall2 (fun a => R (f a)) l m.
Proof.
  revert m; induction l as [|a l IH]; intros m; split; intros H; inversion H; subst; constructor; auto; apply IH; auto.
Qed.

Theorem lex_main cs : clean cs -> regular_blocks cs ->
  exists ts last s' toks body rest,
    lex_all (utf8s cs) = Ok (ts ++ [last]) s' /\
    lexing [] cs toks rest /\ cs = body ++ rest /\ Forall2 tok_is ts toks /\
    (tkind last = KEOF /\ tlit last = [] /\ rest = [] \/ tkind last = KIllegal /\ stuck rest) /\
    (noCR cs -> Forall2 tok_at ts toks /\ tline last = line_of body) /\
    (noCR cs -> ~ contains triple cs -> ~ ends_dq cs ->
       Forall2 tok_col ts toks /\ (~ dangling_quote rest -> tcol last = Z.of_nat (column_of body))) /\
    rest = clast (fuel_of (utf8s cs)) cs 1 0.
Proof.
  intros Hc Hr. destruct (lex_all_total (utf8s cs)) as (ts & last & s' & Hl & Hlast & Hts & _).
  pose proof (lex_all_clex cs _ s' Hc Hl) as E.
  destruct (clex_main (fuel_of (utf8s cs)) cs [] 1 0 Hc Hr) as (rs & lk & ll & lc & toks & body & rest & I1 & I2 & I3 & I4 & I5 & I6 & I7 & I8).
  { unfold fuel_of. pose proof (utf8s_length cs). lia. }
  rewrite I1, map_app in E. cbn [map] in E. apply app_inj_tail in E as [E1 E2].
  exists ts, last, s', toks, body, rest. split; [exact Hl|]. split; [exact I2|]. split; [exact I3|].
  assert (Hlk : tkind last = lk /\ match tkind last with KIllegal => [] | _ => tlit last end = [] /\ tline last = ll /\ tcol last = lc).
  { unfold strip in E2. injection E2. auto. }
  destruct Hlk as (K1 & K2 & K3 & K4).
  assert (Hn : noCR cs -> Forall (fun k => noCR (sbefore k)) toks).
  { intros Hn. apply (lexing_noCR _ _ _ _ I2). exact Hn. }
  split; [|split; [|split; [|split; [|exact I8]]]].
  - rewrite <- E1 in I4. rewrite Forall2_map_l in I4.
    clear - I4 Hts. induction I4; [constructor|]. inversion Hts; subst. constructor; auto.
    unfold row_is in H. unfold tok_is. unfold strip in H. cbn in H. unfold is_last in *.
    destruct (tkind x); try discriminate; injection H as -> ->; auto.
  - destruct I5 as [[-> ->]|[-> I5]]; [left|right; auto]. rewrite K1 in K2. auto.
  - intros Hcr. destruct (I6 Hcr eq_refl) as (J1 & J2). rewrite <- E1 in J1. rewrite Forall2_map_l in J1. split.
    + eapply Forall2_with; [exact J1|exact (Hn Hcr)|]. intros t k Ht Hk. unfold row_line in Ht. unfold tok_at, line_of.
      rewrite <- line_of_pos in Ht by exact Hk. exact Ht.
    + rewrite K3, J2. cbn [app]. rewrite <- line_of_pos; [reflexivity|]. rewrite I3 in Hcr. apply Forall_app in Hcr. tauto.
  - intros Hcr Ht Hd. destruct (I7 Hcr Ht Hd eq_refl) as (J1 & J2). rewrite <- E1 in J1. rewrite Forall2_map_l in J1. split.
    + eapply Forall2_with; [exact J1|exact (Hn Hcr)|]. intros t k Hx Hk. unfold row_col in Hx. unfold tok_col, column_of.
      rewrite (column_of_pos (sbefore k) 1 [] Hk). unfold strip in Hx. cbn [snd] in Hx. cbn [List.length]. lia.
    + intros Hdr. rewrite K4, (J2 Hdr). unfold column_of. cbn [app].
      rewrite (column_of_pos body 1 []); [cbn [List.length]; lia|]. rewrite I3 in Hcr. apply Forall_app in Hcr. tauto.
Qed.
