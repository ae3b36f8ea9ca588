(** * LexWhy: the messages of Illegal tokens are the complaints of Complaint.v. *)
From Verif Require Import Base Utf8 Utf8Proofs Lexer LexerTotal LexCP LexRefine LexSpec LexAgree LexMain Complaint.
From Coq Require Import ZifyBool ZifyNat ZifyN.
Local Open Scope lex_scope.

(** ** Quoting *)
Lemma lower_hex_digit n : (0 <= n < 16)%Z -> lower_digit n (lower_hex n).
Proof.
  intros H. split; [lia|]. unfold lower_hex.
  assert (n = 0 \/ n = 1 \/ n = 2 \/ n = 3 \/ n = 4 \/ n = 5 \/ n = 6 \/ n = 7 \/ n = 8 \/ n = 9 \/ n = 10 \/ n = 11 \/ n = 12 \/ n = 13 \/ n = 14 \/ n = 15)%Z as C by lia.
  repeat (destruct C as [-> |C]; [reflexivity|]). rewrite C. reflexivity.
Qed.
(** runes of clean texts, and the NUL of the end of the text *)
Definition rune (c : Z) : Prop := scalar c.
Lemma shown_rune q c : scalar c -> q <> c \/ scalar q -> shown q c (escaped_rune q c).
Proof.
  intros S _. unfold escaped_rune. destruct ((c =? q) || (c =? 92)) eqn:E1; [rewrite encode_rune_utf8 by exact S; apply sh_mark; lia|].
  destruct ((32 <=? c) && negb (c =? 127)) eqn:E2; [rewrite encode_rune_utf8 by exact S; apply sh_plain; lia|].
  repeat match goal with |- shown q c (if c =? ?n then ?b else _) => destruct (Z.eqb_spec c n) as [-> |]; [apply sh_short; cbn; tauto|] end.
  destruct (Z.ltb_spec c 32).
  - unfold scalar in S. apply (sh_hex q c (c / 16) (c mod 16)); try lia; apply lower_hex_digit.
    + split; [apply Z.div_pos; lia|apply Z.div_lt_upper_bound; lia].
    + apply Z.mod_pos_bound. lia.
  - assert (c = 127%Z) as -> by lia. apply sh_del.
Qed.
Lemma quoted_rune c : scalar c -> in_quotes 39 [c] (quote_rune c).
Proof. intros S. exists (escaped_rune 39 c ++ []). split; [constructor; [apply shown_rune; [exact S|right; unfold scalar; lia]|constructor]|]. unfold quote_rune. rewrite app_nil_r. reflexivity. Qed.
Lemma quoted_string cs : Forall scalar cs -> in_quotes 34 cs (quote_string cs).
Proof.
  intros F. exists (flat_map (escaped_rune 34) cs). split; [|reflexivity].
  induction F as [|c cs S F IH]; [constructor|]. cbn [flat_map]. constructor; [apply shown_rune; [exact S|right; unfold scalar; lia]|exact IH].
Qed.
Lemma hd0_next cs : hd0 cs = next cs.
Proof. destruct cs; reflexivity. Qed.
Lemma next_scalar cs : Forall good cs -> scalar (next cs).
Proof. intros F. destruct F as [|c cs [S _] _]; [unfold scalar; cbn; lia|exact S]. Qed.
Lemma tl_good cs : Forall good cs -> Forall good (tl cs).
Proof. intros F. destruct F; [constructor|assumption]. Qed.
Lemma at_goods i s cs : at_ i s cs -> Forall good cs.
Proof. intros (_ & _ & H). exact H. Qed.

(** ** Punctuators *)
Lemma dots_why i s t : at_ i s (46%Z :: t) -> match t with x :: y :: _ => (x =? 46) && (y =? 46) | _ => false end = false ->
  exists msg s', scanPunctuator 46 (List.length (utf8 46)) i (adv s [46%Z]) = Ok (illegal msg (line s) (Z.of_nat (lpos s) + 1)) s' /\ complaint (46%Z :: t) msg.
Proof.
  intros Hat E. unfold scanPunctuator, bind, get. change (46 =? 46) with true. cbn beta iota.
  pose proof (at_cons _ _ _ _ Hat) as H1. rewrite (readr_any _ _ _ H1). cbn beta iota.
  pose proof (at_adv1 _ _ _ H1) as H2. rewrite (readr_any _ _ _ H2). cbn beta iota.
  replace (negb (hd0 t =? 46) || negb (hd0 (tl t) =? 46)) with true.
  - unfold ret. unfold adv. cbn [line lpos List.length]. eexists _, _. split; [f_equal; unfold illegal; f_equal; lia|].
    apply co_dots; [|rewrite <- !hd0_next; apply quoted_string].
    + intros [u ->]. cbn in E. discriminate.
    + pose proof (at_goods _ _ _ H1) as G. constructor; [unfold scalar; lia|]. constructor; [rewrite hd0_next; apply next_scalar, G|]. constructor; [rewrite hd0_next; apply next_scalar, tl_good, G|constructor].
  - destruct t as [|x [|y t]]; cbn in *; try reflexivity; try lia.
Qed.

(** ** Numbers *)
Definition digit_msg (cs : list Z) : bytes := B "invalid number, expected digit but got: " ++ quote_rune (hd0 cs).
Lemma readDigits_why i s cs : at_ i s cs -> cdigits cs = None -> readDigits (hd0 cs) i (adv1 s cs) = Ok (inl (digit_msg cs)) (adv1 s cs) /\ ends digit cs.
Proof.
  intros Hat E. unfold cdigits in E. destruct cs as [|c t]; [split; [reflexivity|exact I]|]. cbn [span] in E. unfold readDigits. cbn [hd0 hd].
  destruct (is_digit c) eqn:Ec; [destruct (span is_digit t); discriminate|]. split; [reflexivity|]. cbn [ends]. apply is_digit_false, Ec.
Qed.
Lemma co_digits w t : wants_digit w t -> ends digit t -> Forall good t -> complaint (w ++ t) (digit_msg t).
Proof. intros W E G. apply co_digit; [exact W|exact E|]. change (hd0 t) with (next t). apply quoted_rune, next_scalar, G. Qed.
Lemma number_why i s c t : at_ i s (c :: t) -> is_digit c || (c =? 45) = true -> cnum (c :: t) = None ->
  exists msg s', scanNumber c i (adv s [c]) = Ok (illegal msg (line s) (Z.of_nat (lpos s) + 1)) s' /\ complaint (c :: t) msg.
Proof.
  intros Hat Hc. unfold cnum. destruct (c_sign (c :: t)) as [sg cs1] eqn:Esg.
  pose proof (num_intpart_ok _ _ _ _ _ Hat Esg) as H1. cbn [hd0 hd adv1] in H1.
  assert (Hcol : Z.of_nat (lpos (adv s [c])) = (Z.of_nat (lpos s) + 1)%Z) by (unfold adv; cbn; lia).
  assert (Hln : line (adv s [c]) = line s) by reflexivity.
  destruct (c_sign_spec _ _ _ Esg) as [Ecs Hsg]. pose proof (at_app _ _ _ _ _ Hat Ecs) as Hat1.
  destruct (c_intpart cs1) as [[ip cs2]|] eqn:Eint.
  - destruct H1 as [H1 E1]. destruct (c_intpart_sound _ _ _ Eint) as (E1' & Nip & _).
    assert (Iip : integer_part (sg ++ ip)) by (destruct Hsg as [-> | ->]; [left; exact Nip|right; exists ip; auto]).
    pose proof (at_app _ _ _ (sg ++ ip) cs2 Hat ltac:(rewrite <- app_assoc; exact E1)) as Hat2.
    pose proof (num_fracpart_ok _ _ _ Hat2) as H2. destruct (c_fracpart cs2) as [[[fp f1] cs3]|] eqn:Efr.
    + destruct H2 as [H2 E2]. destruct (c_fracpart_sound _ _ _ _ Efr) as (_ & Hf).
      pose proof (at_app _ _ _ _ _ Hat2 E2) as Hat3.
      assert (Hfp : fp = [] \/ fractional_part fp) by tauto.
      unfold c_exppart. destruct cs3 as [|x cs3]; [discriminate|]. destruct ((x =? 101) || (x =? 69)) eqn:Ex; [|discriminate].
      destruct (c_expsign cs3) as [es t'] eqn:Ees. destruct (cdigits t') as [[? ?]|] eqn:Ed; [discriminate|]. intros _.
      pose proof (at_cons _ _ _ _ Hat3) as Hat4.
      assert (G : cs3 = es ++ t' /\ (es = [] /\ next t' <> 43%Z /\ next t' <> 45%Z \/ es = [43%Z] \/ es = [45%Z]) /\
        (if (hd0 cs3 =? 43) || (hd0 cs3 =? 45) then '(r, _) <- readr ;; ret r else ret (hd0 cs3)) i (adv1 (adv (adv (adv s (sg ++ ip)) fp) [x]) cs3) = Ok (hd0 t') (adv1 (adv (adv (adv (adv s (sg ++ ip)) fp) [x]) es) t')).
      { unfold c_expsign in Ees. destruct cs3 as [|y u].
        - injection Ees as <- <-. split; [reflexivity|]. split; [left; cbn; repeat split; lia|]. cbn. rewrite adv_nil. reflexivity.
        - cbn [hd0 hd adv1]. destruct ((y =? 43) || (y =? 45)) eqn:Ey.
          + injection Ees as <- <-. split; [reflexivity|]. split; [right; destruct (Z.eqb_spec y 43) as [-> |]; [left|right; replace y with 45%Z by lia]; reflexivity|]. unfold bind.
            rewrite (readr_any _ _ _ (at_cons _ _ _ _ Hat4)). reflexivity.
          + injection Ees as <- <-. split; [reflexivity|]. split; [left; cbn; repeat split; lia|]. rewrite adv_nil. reflexivity. }
      destruct G as (Et & Hes & G). pose proof (at_app _ _ _ _ _ Hat4 Et) as Hat5. destruct (readDigits_why _ _ _ Hat5 Ed) as [Hd En].
      unfold scanNumber. unfold bind at 1, get at 1. unfold bind at 1. rewrite H1. unfold bind at 1. rewrite H2. unfold bind at 1. unfold num_exppart. cbn [hd0 hd adv1 hdw]. rewrite Ex.
      unfold bind at 1. rewrite (readr_any _ _ _ Hat4). cbn beta iota. unfold bind at 1. rewrite G. unfold bind at 1. rewrite Hd. unfold ret. cbn beta iota. rewrite Hcol, Hln.
      eexists _, _. split; [reflexivity|]. rewrite E1, E2, Et.
      replace (sg ++ ip ++ fp ++ x :: es ++ t') with (((sg ++ ip) ++ fp ++ x :: es) ++ t') by (rewrite <- !app_assoc; cbn [app]; reflexivity).
      apply co_digits; [|exact En|apply (at_goods _ _ _ Hat5)]. assert (exp_mark x) by (unfold exp_mark; lia).
      destruct Hes as [(-> & N1 & N2)|[-> | ->]]; [apply wd_exp|apply wd_exp_sign..]; auto.
    + intros _. unfold c_fracpart in Efr. destruct cs2 as [|x cs2]; [discriminate|]. destruct (Z.eqb_spec x 46) as [-> |]; [|discriminate].
      destruct (cdigits cs2) as [[? ?]|] eqn:Ed; [discriminate|]. pose proof (at_cons _ _ _ _ Hat2) as Hat3. destruct (readDigits_why _ _ _ Hat3 Ed) as [Hd En].
      unfold scanNumber. unfold bind at 1, get at 1. unfold bind at 1. rewrite H1. unfold bind at 1. unfold num_fracpart. cbn [hd0 hd adv1 hdw]. change (46 =? 46) with true. cbn beta iota.
      unfold bind at 1. rewrite (readr_any _ _ _ Hat3). cbn beta iota. unfold bind at 1. rewrite Hd. unfold ret. cbn beta iota. rewrite Hcol, Hln.
      eexists _, _. split; [reflexivity|]. rewrite E1.
      replace (sg ++ ip ++ 46%Z :: cs2) with (((sg ++ ip) ++ [46%Z]) ++ cs2) by (rewrite <- !app_assoc; cbn [app]; reflexivity).
      apply co_digits; [|exact En|apply (at_goods _ _ _ Hat3)]. apply wd_point, Iip.
  - intros _. clear H1.
    assert (G : (if c =? 45 then '(r, _) <- readr ;; ret r else ret c) i (adv s [c]) = Ok (hd0 cs1) (adv1 (adv s sg) cs1)).
    { unfold c_sign in Esg. destruct (c =? 45).
      - injection Esg as <- <-. unfold bind. rewrite (readr_any _ _ _ (at_cons _ _ _ _ Hat)). reflexivity.
      - injection Esg as <- <-. rewrite adv_nil. reflexivity. }
    unfold scanNumber. unfold bind at 1, get at 1. unfold bind at 1. unfold num_intpart. unfold bind at 1. rewrite G. clear G.
    assert (Dg : cdigits cs1 = None -> readDigits (hd0 cs1) i (adv1 (adv s sg) cs1) = Ok (inl (digit_msg cs1)) (adv1 (adv s sg) cs1) /\ complaint (c :: t) (digit_msg cs1)).
    { intros Ed. destruct (readDigits_why _ _ _ Hat1 Ed) as [Hd En]. split; [exact Hd|]. destruct Hsg as [-> | ->].
      - exfalso. cbn [app] in Ecs. subst cs1. unfold c_sign in Esg. destruct (Z.eqb_spec c 45); [discriminate|]. cbn in En. apply En, is_digit_spec. rewrite orb_false_r in Hc. exact Hc.
      - rewrite Ecs. apply co_digits; [constructor|exact En|apply (at_goods _ _ _ Hat1)]. }
    unfold c_intpart in Eint. destruct cs1 as [|x u].
    + destruct (Dg eq_refl) as [Hd Co]. cbn [hd0 hd] in *. change (0 =? 48) with false. cbn beta iota. rewrite Hd. unfold ret. cbn beta iota. rewrite Hcol, Hln. eexists _, _. split; [reflexivity|exact Co].
    + destruct (Z.eqb_spec x 48) as [-> |Nx].
      * destruct u as [|d u]; [discriminate|]. destruct (is_digit d) eqn:Ed; [|discriminate].
        cbn [hd0 hd adv1]. change (48 =? 48) with true. cbn beta iota. unfold bind at 1. rewrite (readr_any _ _ _ (at_cons _ _ _ _ Hat1)). cbn [hd0 hd]. cbn beta iota. rewrite Ed. unfold ret. cbn beta iota. rewrite Hcol, Hln.
        eexists _, _. split; [reflexivity|]. rewrite Ecs. apply co_zero; [exact Hsg|apply is_digit_spec, Ed|].
        apply quoted_rune. pose proof (at_goods _ _ _ (at_cons _ _ _ _ Hat1)) as G. inversion G as [|? ? [S _] _]. exact S.
      * destruct (Dg Eint) as [Hd Co]. cbn [hd0 hd] in Hd |- *. replace (x =? 48) with false by lia. rewrite Hd. unfold ret. cbn beta iota. rewrite Hcol, Hln. eexists _, _. split; [reflexivity|exact Co].
Qed.

(** ** Strings *)
Definition stopped (cs : list Z) (r : Z) : Prop :=
  exists p u, cs = p ++ u /\ inside p /\ (r = next u /\ (next u < 32)%Z /\ next u <> 9%Z \/ r = 0%Z /\ cut_escape u).
Definition closed (cs : list Z) : Prop := exists p u, cs = p ++ 34%Z :: u /\ inside p.
Lemma stopped_step w cs r : (forall p, inside p -> inside (w ++ p)) -> stopped cs r -> stopped (w ++ cs) r.
Proof. intros H (p & u & -> & Ip & K). exists (w ++ p), u. split; [rewrite <- app_assoc; reflexivity|]. split; [apply H, Ip|exact K]. Qed.
Lemma closed_step w cs : (forall p, inside p -> inside (w ++ p)) -> closed cs -> closed (w ++ cs).
Proof. intros H (p & u & -> & Ip). exists (w ++ p), u. split; [rewrite <- app_assoc; reflexivity|apply H, Ip]. Qed.
Lemma pass1_end n b i s : at_ i s [] -> (0 < n)%nat -> scanString_pass1 n b i s = Ok (inl 0%Z) s.
Proof. intros Hat Hn. destruct n as [|n]; [lia|]. cbn [scanString_pass1]. unfold bind. rdn Hat. reflexivity. Qed.
Definition done1 (cs : list Z) (o : outcome (Z + bool)) : Prop :=
  (exists r s', o = Ok (inl r) s' /\ stopped cs r) \/ (exists b' s', o = Ok (inr b') s' /\ closed cs).
Lemma pass1_why n : forall b i s cs, at_ i s cs -> (List.length cs < n)%nat -> done1 cs (scanString_pass1 n b i s).
Proof.
  induction n as [|n IH]; intros b i s cs Hat Hn; [lia|]. destruct cs as [|c t].
  { left. rewrite (pass1_end _ _ _ _ Hat) by lia. eexists _, _. split; [reflexivity|]. exists [], []. split; [reflexivity|]. split; [constructor|]. left. cbn. repeat split; lia. }
  cbn [List.length] in Hn. pose proof (at_cons _ _ _ _ Hat) as Hat1. cbn [scanString_pass1]. unfold bind at 1. rd Hat.
  destruct (Z.eqb_spec c 34) as [-> |N34]; [right; eexists _, _; split; [reflexivity|exists [], t; split; [reflexivity|constructor]]|].
  destruct ((c <? 32) && negb (c =? c_tab)) eqn:Ec.
  { left. eexists _, _. split; [reflexivity|]. exists [], (c :: t). split; [reflexivity|]. split; [constructor|]. left. cbn. unfold c_tab in Ec. repeat split; lia. }
  assert (P : forall w t1 b1 s1, c :: t = w ++ t1 -> (List.length t1 < n)%nat -> at_ i s1 t1 -> (forall p, inside p -> inside (w ++ p)) -> done1 (c :: t) (scanString_pass1 n b1 i s1)).
  { intros w t1 b1 s1 E L A W. rewrite E. destruct (IH b1 i s1 t1 A L) as [(r & s' & K & S)|(b' & s' & K & C)]; [left; exists r, s'; split; [exact K|apply stopped_step; assumption]|right; exists b', s'; split; [exact K|apply closed_step; assumption]]. }
  assert (Cut : forall b1 s1, at_ i s1 [] -> cut_escape (c :: t) -> done1 (c :: t) (scanString_pass1 n b1 i s1)).
  { intros b1 s1 A C. left. rewrite (pass1_end _ _ _ _ A) by lia. eexists _, _. split; [reflexivity|]. exists [], (c :: t). split; [reflexivity|]. split; [constructor|]. right. auto. }
  destruct (Z.eqb_spec c c_bsl) as [-> |N92].
  - unfold c_bsl in *. destruct t as [|e t].
    { unfold bind at 1. rdn Hat1. change (0 =? 117) with false. cbn beta iota. apply Cut; [exact Hat1|left; reflexivity]. }
    unfold bind at 1. rd Hat1. pose proof (at_cons _ _ _ _ Hat1) as Hat2. destruct (Z.eqb_spec e 117) as [-> |N117].
    + unfold bind at 1. rewrite (readr_any _ _ _ Hat2). cbn beta iota. pose proof (at_adv1 _ _ _ Hat2) as H3.
      unfold bind at 1. rewrite (readr_any _ _ _ H3). cbn beta iota. pose proof (at_adv1 _ _ _ H3) as H4.
      unfold bind at 1. rewrite (readr_any _ _ _ H4). cbn beta iota. pose proof (at_adv1 _ _ _ H4) as H5.
      unfold bind at 1. rewrite (readr_any _ _ _ H5). cbn beta iota. pose proof (at_adv1 _ _ _ H5) as H6.
      destruct t as [|h1 [|h2 [|h3 [|h4 t]]]].
      5:{ apply (P [92; 117; h1; h2; h3; h4]%Z t); [reflexivity|cbn in Hn; lia|exact H6|]. intros p Hp. apply in_unicode, Hp. }
      all: (apply Cut; [exact H6|right; eexists; split; [reflexivity|cbn; lia]]).
    + apply (P [92; e]%Z t); [reflexivity|cbn in Hn; lia|exact Hat2|]. intros p Hp. apply in_escape; assumption.
  - apply (P [c] t); [reflexivity|lia|exact Hat1|]. intros p Hp. unfold c_tab, c_bsl in *. apply in_char; [lia|lia|lia|exact Hp].
Qed.

(** the first bad escape *)
Inductive first_bad : list Z -> bytes -> Prop :=
| fb_escape b v e t : string_chars b v -> (forall x, ~ escape e x) -> e <> 117%Z -> first_bad (b ++ 92%Z :: e :: t) (B "invalid character escape sequence: \" ++ utf8 e)
| fb_unicode b v h1 h2 h3 h4 t : string_chars b v -> ~ (forall h, In h [h1; h2; h3; h4] -> exists x, hexdigit h x) ->
    first_bad (b ++ 92 :: 117 :: h1 :: h2 :: h3 :: h4 :: t)%Z (B "invalid character escape sequence: \u" ++ utf8s [h1; h2; h3; h4]).
Lemma first_bad_step w cs m : (forall b v, string_chars b v -> exists v', string_chars (w ++ b) v') -> first_bad cs m -> first_bad (w ++ cs) m.
Proof.
  intros H F. destruct F as [b v e t S N1 N2|b v h1 h2 h3 h4 t S N]; destruct (H _ _ S) as [v' S']; rewrite app_assoc; [eapply fb_escape|eapply fb_unicode]; eassumption.
Qed.
Lemma encode_rune_at i s c t : at_ i s (c :: t) -> encode_rune c = utf8 c.
Proof. intros H. destruct (at_good _ _ _ _ H) as [S _]. apply encode_rune_utf8, S. Qed.
Definition done2 (cs : list Z) (o : outcome (bytes + bytes)) : Prop :=
  (exists bs' s', o = Ok (inr bs') s') \/ (exists msg s', o = Ok (inl msg) s' /\ first_bad cs msg).
Lemma pass2_why p : inside p -> forall u i s n bs, at_ i s (p ++ 34%Z :: u) -> (List.length p < n)%nat -> done2 (p ++ 34%Z :: u) (scanString_pass2 n bs i s).
Proof.
  intros Ip u. induction Ip as [|c p Hc N34 N92 Ip IH|e p N Ip IH|h1 h2 h3 h4 p Ip IH]; intros i s n bs Hat Hn; (destruct n as [|n]; [lia|]); cbn [List.length] in Hn; cbn [app] in *; cbn [scanString_pass2]; unfold bind at 1; rd Hat; pose proof (at_cons _ _ _ _ Hat) as Hat1.
  - left. eexists _, _. reflexivity.
  - destruct (at_good _ _ _ _ Hat) as [_ Nz]. replace ((c =? 34) || (c =? eof)) with false by (unfold eof; lia). replace (c =? c_bsl) with false by (unfold c_bsl; lia).
    destruct (IH i _ n (bs ++ encode_rune c) Hat1 ltac:(lia)) as [(bs' & s' & E)|(msg & s' & E & F)]; [left; eauto|right]. exists msg, s'. split; [exact E|].
    apply (first_bad_step [c]); [|exact F]. intros b v S. eexists. apply sc_char; eassumption.
  - change ((92 =? 34) || (92 =? eof)) with false. change (92 =? c_bsl) with true. cbn beta iota. unfold bind at 1. destruct (c_escape e) as [x|] eqn:Ee.
    + rewrite (escapedChar_ok _ _ _ _ _ Hat1 Ee). pose proof (at_cons _ _ _ _ Hat1) as Hat2.
      destruct (IH i _ n (bs ++ encode_rune x) Hat2 ltac:(lia)) as [(bs' & s' & E)|(msg & s' & E & F)]; [left; eauto|right]. exists msg, s'. split; [exact E|].
      apply (first_bad_step [92; e]%Z); [|exact F]. intros b v S. eexists. apply sc_escape; [apply c_escape_spec, Ee|exact S].
    + right. unfold escapedChar. unfold bind at 1. rd Hat1. unfold c_escape in Ee.
      repeat match goal with H : (if e =? ?k then Some _ else _) = None |- _ => destruct (Z.eqb_spec e k); [discriminate|] end.
      replace (e =? 117) with false by lia. unfold ret. rewrite (encode_rune_at _ _ _ _ Hat1). eexists _, _. split; [reflexivity|].
      apply (fb_escape [] []); [constructor| |lia]. intros x X. apply c_escape_spec in X. unfold c_escape in X.
      repeat match goal with H : (if e =? ?k then Some _ else _) = Some _ |- _ => destruct (Z.eqb_spec e k); [congruence|] end. discriminate.
  - change ((92 =? 34) || (92 =? eof)) with false. change (92 =? c_bsl) with true. cbn beta iota. unfold bind at 1.
    pose proof (at_cons _ _ _ _ Hat1) as Ha. pose proof (at_cons _ _ _ _ Ha) as Hb. pose proof (at_cons _ _ _ _ Hb) as Hd. pose proof (at_cons _ _ _ _ Hd) as He. pose proof (at_cons _ _ _ _ He) as Hf.
    unfold escapedChar. unfold bind at 1. rd Hat1. cbn [Z.eqb Pos.eqb]. unfold bind at 1. rd Ha. unfold bind at 1. rd Hb. unfold bind at 1. rd Hd. unfold bind at 1. rd He. cbv zeta.
    destruct (unicodeCodePointToRune h1 h2 h3 h4 <? 0) eqn:En; unfold ret; cbn beta iota.
    + right. rewrite (encode_rune_at _ _ _ _ Ha), (encode_rune_at _ _ _ _ Hb), (encode_rune_at _ _ _ _ Hd), (encode_rune_at _ _ _ _ He). eexists _, _. split; [reflexivity|].
      replace (utf8 h1 ++ utf8 h2 ++ utf8 h3 ++ utf8 h4) with (utf8s [h1; h2; h3; h4]) by (unfold utf8s; cbn [flat_map]; rewrite app_nil_r; reflexivity).
      apply (fb_unicode [] []); [constructor|]. intros A. destruct (A h1) as [x1 X1]; [cbn; tauto|]. destruct (A h2) as [x2 X2]; [cbn; tauto|]. destruct (A h3) as [x3 X3]; [cbn; tauto|]. destruct (A h4) as [x4 X4]; [cbn; tauto|].
      destruct (unicode_complete _ _ _ _ _ _ _ _ X1 X2 X3 X4) as [_ X]. congruence.
    + destruct (IH i _ n (bs ++ encode_rune (unicodeCodePointToRune h1 h2 h3 h4)) Hf ltac:(lia)) as [(bs' & s' & E)|(msg & s' & E & F)]; [left; eauto|right]. exists msg, s'. split; [exact E|].
      apply (first_bad_step [92; 117; h1; h2; h3; h4]%Z); [|exact F]. intros b v S. destruct (unicode_sound _ _ _ _ En) as (x1 & x2 & x3 & x4 & X1 & X2 & X3 & X4 & _). eexists. apply sc_unicode; eassumption.
Qed.
Lemma lit_of t t' s s' : Ok (A := token) t s = Ok t' s' -> tlit t = tlit t'.
Proof. congruence. Qed.
Lemma string_why i s cs : at_ i s cs -> cstr cs = None ->
  exists msg s', scanString i s = Ok (illegal msg (line s) (Z.of_nat (lpos s))) s' /\ complaint (34%Z :: cs) msg.
Proof.
  intros Hat Hc. destruct (scanString_bad i s cs Hat Hc) as (msg & s' & E). exists msg, s'. split; [exact E|]. revert E.
  unfold scanString. unfold bind at 1, get at 1. cbv zeta. unfold bind at 1, with_fuel at 1. pose proof (at_fuel _ _ _ Hat) as Hf.
  destruct (pass1_why (fuel_of i) false i s cs Hat ltac:(lia)) as [(r & s1 & H & (p & u & -> & Ip & K))|(b & s1 & H & (p & u & -> & Ip))]; rewrite H.
  - unfold ret. intros E. apply lit_of in E. cbn [tlit illegal] in E. subst msg.
    destruct K as [(-> & L & N)|(-> & Cu)]; [apply co_string; [exact Ip|exact L|exact N|]|apply co_string_cut; [exact Ip|exact Cu|]]; apply quoted_rune; [|unfold scalar; lia].
    apply next_scalar. pose proof (at_goods _ _ _ Hat) as G. apply Forall_app in G. tauto.
  - destruct b.
    + unfold bind, put, with_fuel. destruct (pass2_why p Ip u i s (fuel_of i) [] Hat ltac:(rewrite app_length in Hf; lia)) as [(bs' & s2 & E2)|(m & s2 & E2 & F)]; rewrite E2; unfold ret; intros E; [discriminate|].
      apply lit_of in E. cbn [tlit illegal] in E. subst m. remember (p ++ 34%Z :: u) as cs eqn:Ecs. destruct F as [b v e t S N1 N2|b v h1 h2 h3 h4 t S N]; [eapply co_escape|eapply co_unicode]; eassumption.
    + unfold bind, get. destruct (slice _ _ _ _) as [l s2| |]; discriminate.
Qed.

(** ** Block strings *)
Definition bwhy (cs : list Z) (msg : bytes) : Prop :=
  (msg = bs_eof_msg /\ exists u, block_runs cs u /\ block_left u) \/
  (exists c u, block_runs cs (c :: u) /\ (c < 32)%Z /\ c <> 9%Z /\ c <> 10%Z /\ c <> 13%Z /\ msg = bs_bad_msg c).
Lemma bwhy_step cs t msg : (forall u, block_runs t u -> block_runs cs u) -> bwhy t msg -> bwhy cs msg.
Proof. intros H [(-> & u & R & L)|(c & u & R & K)]; [left; split; [reflexivity|exists u; auto]|right; exists c, u; auto]. Qed.
Definition done3 (cs : list Z) (o : outcome (bytes + bool * bool)) : Prop :=
  (exists x s', o = Ok (inr x) s') \/ (exists msg s', o = Ok (inl msg) s' /\ bwhy cs msg).
Lemma done3_step cs t o : (forall u, block_runs t u -> block_runs cs u) -> done3 t o -> done3 cs o.
Proof. intros H [K|(msg & s' & E & W)]; [left; exact K|right; exists msg, s'; split; [exact E|apply (bwhy_step _ t); assumption]]. Qed.
Lemma bpass1_end n he hc i s : at_ i s [] -> (0 < n)%nat -> scanBlock_pass1 n he hc i s = Ok (inl bs_eof_msg) s.
Proof. intros Hat Hn. destruct n as [|n]; [lia|]. cbn [scanBlock_pass1]. unfold bind. rdn Hat. reflexivity. Qed.
Lemma two_quotes_prefix t : two_quotes t = false -> ~ prefix triple (34%Z :: t).
Proof. intros E [u Eu]. cbn in Eu. injection Eu as ->. cbn in E. discriminate. Qed.
Lemma not34_prefix c t : c <> 34%Z -> ~ prefix triple (c :: t).
Proof. intros N [u Eu]. cbn in Eu. congruence. Qed.
Lemma bpass1_why n : forall he hc i s cs, at_ i s cs -> (List.length cs < n)%nat -> done3 cs (scanBlock_pass1 n he hc i s).
Proof.
  induction n as [|n IH]; intros he hc i s cs Hat Hn; [lia|]. destruct cs as [|c t].
  { right. rewrite (bpass1_end _ _ _ _ _ Hat) by lia. eexists _, _. split; [reflexivity|]. left. split; [reflexivity|]. exists []. split; [constructor|left; reflexivity]. }
  cbn [List.length] in Hn. pose proof (at_cons _ _ _ _ Hat) as Hat1. destruct (at_good _ _ _ _ Hat) as [_ Nz].
  assert (Left : forall he hc s1, at_ i s1 [] -> block_left (c :: t) -> done3 (c :: t) (scanBlock_pass1 n he hc i s1)).
  { intros he1 hc1 s1 A L. right. rewrite (bpass1_end _ _ _ _ _ A) by lia. eexists _, _. split; [reflexivity|]. left. split; [reflexivity|]. exists (c :: t). split; [constructor|exact L]. }
  cbn [scanBlock_pass1]. unfold bind at 1. rd Hat. destruct (Z.eqb_spec c c_bsl) as [-> |N92].
  - unfold c_bsl in *. destruct t as [|e t].
    { unfold bind at 1. rdn Hat1. change (0 =? 34) with false. cbn beta iota. apply Left; [exact Hat1|right; left; reflexivity]. }
    cbn [List.length] in Hn. unfold bind at 1. rd Hat1. pose proof (at_cons _ _ _ _ Hat1) as Hat2. destruct (Z.eqb_spec e 34) as [-> |N34].
    + pose proof (isTrip_ok _ _ _ Hat2) as Ht. unfold bind. destruct (two_quotes t) eqn:E2.
      * destruct Ht as [Ht [t2 ->]]. rewrite Ht. pose proof (at_adv _ _ [34; 34]%Z t2 Hat2) as Hat3.
        apply (done3_step _ t2); [intros u R; apply (br_triple t2 u R)|]. apply IH; [exact Hat3|cbn in Hn; lia].
      * destruct Ht as [[_ Ht]|[HL (s' & Ht & Hnil)]]; rewrite Ht.
        -- apply (done3_step _ t); [intros u R; apply br_escape; [apply two_quotes_prefix, E2|exact R]|]. apply IH; [exact Hat2|lia].
        -- destruct t as [|x [|y t]]; [| |cbn in HL; lia].
           ++ apply (done3_step _ []); [intros u R; apply br_escape; [apply two_quotes_prefix, E2|exact R]|]. apply IH; [exact Hnil|cbn; lia].
           ++ apply Left; [exact Hnil|]. right. right. exists x. right. reflexivity.
    + apply (done3_step _ t); [intros u R; apply br_escape; [apply not34_prefix, N34|exact R]|]. apply IH; [exact Hat2|lia].
  - replace (c =? eof) with false by (unfold eof; lia). destruct (Z.eqb_spec c c_cr) as [-> |Ncr].
    { apply (done3_step _ t); [intros u R; apply br_char; [unfold c_cr; lia|exact N92|apply not34_prefix; discriminate|exact R]|]. apply IH; [exact Hat1|lia]. }
    unfold c_cr, c_bsl, c_lf, c_tab in *. destruct ((c <? 32) && negb (c =? 9) && negb (c =? 10) && negb false) eqn:Ec.
    { right. eexists _, _. split; [reflexivity|]. right. exists c, t. split; [constructor|]. repeat split; lia. }
    assert (Hc : (c = 9 \/ c = 10 \/ c = 13 \/ 32 <= c)%Z) by lia. destruct (Z.eqb_spec c 34) as [-> |N34].
    + pose proof (isTrip_ok _ _ _ Hat1) as Ht. unfold bind. destruct (two_quotes t) eqn:E2.
      * destruct Ht as [Ht [t2 ->]]. rewrite Ht. left. eexists _, _. reflexivity.
      * destruct Ht as [[_ Ht]|[HL (s' & Ht & Hnil)]]; rewrite Ht.
        -- apply (done3_step _ t); [intros u R; apply br_char; [exact Hc|exact N92|apply two_quotes_prefix, E2|exact R]|]. apply IH; [exact Hat1|lia].
        -- destruct t as [|x [|y t]]; [| |cbn in HL; lia].
           ++ apply (done3_step _ []); [intros u R; apply br_char; [exact Hc|exact N92|apply two_quotes_prefix, E2|exact R]|]. apply IH; [exact Hnil|cbn; lia].
           ++ apply Left; [exact Hnil|]. right. right. exists x. left. reflexivity.
    + apply (done3_step _ t); [intros u R; apply br_char; [exact Hc|exact N92|apply not34_prefix, N34|exact R]|]. apply IH; [exact Hat1|lia].
Qed.
Lemma runs_suffix t u : block_runs t u -> exists p, t = p ++ u.
Proof.
  induction 1 as [t|t u _ [p ->]|e t u _ _ [p ->]|c t u _ _ _ _ [p ->]]; [exists []; reflexivity|exists (92%Z :: triple ++ p); cbn; reflexivity|exists (92%Z :: e :: p); reflexivity|exists (c :: p); reflexivity].
Qed.
Lemma block_why i s cs : at_ i s cs -> cblk cs = None ->
  exists msg s', scanBlockString i s = Ok (illegal msg (line s) (Z.of_nat (lpos s) - 2)) s' /\ complaint (triple ++ cs) msg.
Proof.
  intros Hat Ec. pose proof (at_fuel _ _ _ Hat) as Hf. pose proof (bpass1 (fuel_of i) false false i s cs Hat ltac:(lia)) as H1. rewrite Ec in H1. destruct H1 as (msg & s' & H1).
  unfold scanBlockString, bind, get, with_fuel. rewrite H1. unfold ret. eexists _, _. split; [reflexivity|].
  destruct (bpass1_why (fuel_of i) false false i s cs Hat ltac:(lia)) as [(x & s2 & E)|(m & s2 & E & W)]; rewrite H1 in E; [discriminate|]. assert (Em : msg = m) by congruence. subst m.
  destruct W as [(-> & u & R & L)|(c & u & R & L & N1 & N2 & N3 & ->)]; [apply (co_block cs u R L)|]. unfold bs_bad_msg. apply (co_block_char cs c u); try assumption.
  apply quoted_rune. destruct (runs_suffix _ _ R) as [p ->]. pose proof (at_goods _ _ _ Hat) as G. apply Forall_app in G. destruct G as [_ G]. inversion G as [|? ? [S _] _]. exact S.
Qed.

(** ** One token, and all of them *)
Lemma scan_sig_why i s1 c t n : at_ i s1 (c :: t) -> (c =? 35) = false -> ~ ignored_char c ->
  forall s, readNextSignificant i s = Ok (c, List.length (utf8 c)) (adv s1 [c]) ->
  forall l col, ctoken (c :: t) (line s1) (lpos s1) = CIll l col ->
  exists tok s', scan_loop (S n) i s = Ok tok s' /\ complaint (c :: t) (tlit tok).
Proof.
  intros Hat H35 Hig s Hr l col. cbn [scan_loop ctoken]. unfold bind at 1. rewrite Hr.
  pose proof (at_cons _ _ _ _ Hat) as Hat1. destruct (at_good _ _ _ _ Hat) as [Hsc Hnz].
  destruct (is_name_start c) eqn:E1; [destruct (span is_name_cont t); discriminate|].
  destruct (is_punct c) eqn:E2.
  { destruct (Z.eqb_spec c 46) as [-> |Hd]; [|discriminate].
    destruct (match t with x :: y :: _ => (x =? 46) && (y =? 46) | _ => false end) eqn:E3; [discriminate|]. intros _.
    destruct (dots_why i s1 t Hat E3) as (msg & s' & E & Co). rewrite E. eexists _, _. split; [reflexivity|exact Co]. }
  destruct (is_digit c || (c =? 45)) eqn:E3.
  { destruct (cnum (c :: t)) as [[[? ?] ?]|] eqn:En; [discriminate|]. intros _.
    destruct (number_why i s1 c t Hat E3 En) as (msg & s' & E & Co). rewrite E. eexists _, _. split; [reflexivity|exact Co]. }
  rewrite H35. destruct (Z.eqb_spec c 34) as [-> |Hq].
  { destruct (two_quotes t) eqn:E4.
    - destruct t as [|x [|y t]]; try discriminate. cbn [two_quotes] in E4. assert (x = 34%Z) by lia. assert (y = 34%Z) by lia. subst. clear E4.
      pose proof (at_cons _ _ _ _ Hat1) as Hat2. pose proof (at_cons _ _ _ _ Hat2) as Hat3. cbn [skipn].
      destruct (cblk t) as [[? ?]|] eqn:Eb; [discriminate|]. intros _. unfold bind at 1. rd Hat1. unfold bind at 1. rd Hat2. change ((34 =? 34) && (34 =? 34)) with true. cbn beta iota.
      destruct (block_why i _ t Hat3 Eb) as (msg & s' & E & Co). rewrite E. eexists _, _. split; [reflexivity|exact Co].
    - destruct (cstr t) as [[? ?]|] eqn:Ec; [discriminate|]. intros _.
      assert (Hu : exists s2, at_ i s2 t /\ ('(r1, w1) <- readr ;; '(r2, w2) <- readr ;;
        if (r1 =? 34) && (r2 =? 34) then scanBlockString else unread w2 ;;; unread w1 ;;; scanString) i (adv s1 [34%Z]) = scanString i s2).
      { exists (mkL (pos (adv s1 [34%Z])) (lpos s1 + 1 - (2 - List.length t)) (line s1)). split; [eapply at_pos; [exact Hat1|reflexivity]|].
        unfold bind at 1. rewrite (readr_any _ _ _ Hat1). cbn beta iota. pose proof (at_adv1 _ _ _ Hat1) as Hat2.
        unfold bind at 1. rewrite (readr_any _ _ _ Hat2). cbn beta iota.
        replace ((hd0 t =? 34) && (hd0 (tl t) =? 34)) with false.
        2:{ destruct t as [|x [|y t]]; cbn in *; try lia. }
        unfold bind. destruct t as [|x [|y t]]; cbn [tl hdw adv1].
        - unfold unread. cbn [Nat.ltb Nat.leb]. unfold Nat.ltb. cbn [Nat.leb pos lpos line]. f_equal.
          unfold adv. cbn [pos lpos line List.length]. f_equal; lia.
        - unfold unread at 1. unfold Nat.ltb. cbn [Nat.leb].
          unfold unread, adv. cbn [pos lpos line List.length utf8s flat_map]. rewrite !app_nil_r.
          destruct (Nat.ltb_spec (pos s1 + List.length (utf8 34) + List.length (utf8 x) - 0) (List.length (utf8 x))) as [Hl|_]; [lia|].
          f_equal. f_equal; try lia.
        - rewrite !unread_adv. f_equal. unfold adv. cbn [pos lpos line List.length]. f_equal; lia. }
      destruct Hu as (s2 & Hat2 & Hu). rewrite Hu. destruct (string_why i s2 t Hat2 Ec) as (msg & s' & E & Co). rewrite E. eexists _, _. split; [reflexivity|exact Co]. }
  intros _. replace (c =? eof) with false by (unfold eof; lia). unfold bind, get, ret. eexists _, _. split; [reflexivity|]. cbn [tlit].
  rewrite encode_rune_utf8 by exact Hsc. apply co_char; [exact Hig| | | |].
  - intros L. apply is_name_start_spec in L. congruence.
  - intros D. apply is_digit_spec in D. rewrite D in E3. discriminate.
  - intros P. assert (X : is_punct c = true) by (apply is_punct_spec; left; exact P). congruence.
  - intros M. assert (X : is_punct c <> true -> c <> 46%Z) by (intros X ->; apply X; reflexivity). specialize (X ltac:(congruence)). cbn [In] in M. lia.
Qed.
Lemma scan_loop_why n : forall i s cs l col, at_ i s cs -> (List.length cs < n)%nat -> cscan cs (line s) (lpos s) = CIll l col ->
  exists tok s', scan_loop n i s = Ok tok s' /\ complaint (fst (fst (skip cs (Norm false) (line s) (lpos s)))) (tlit tok).
Proof.
  induction n as [|n IH]; intros i s cs l col Hat Hn; [lia|]. unfold cscan. rewrite skip_skip0.
  pose proof (rns_loop (fuel_of i) false i s cs Hat ltac:(apply at_fuel in Hat; lia)) as Hr.
  pose proof (skip0_length cs false (line s) (lpos s)) as HL.
  destruct (skip0 cs false (line s) (lpos s)) as [[r ln] lp]. destruct Hr as (s1 & Hat1 & Hln & Hlp & Hr). subst ln lp.
  destruct r as [|c t]; [cbn [ctoken]; discriminate|]. destruct Hr as (Hr & N1 & N2 & N3).
  destruct (c =? 35) eqn:E35.
  2:{ cbn [fst]. apply (scan_sig_why i s1 c t n Hat1 E35); [|exact Hr]. intros Hi. apply ignored_b in Hi. rewrite N3 in Hi. lia. }
  assert (c = 35%Z) by lia. subst c. rewrite (proj1 (skip_skipc _ _ _)). pose proof (at_cons _ _ _ _ Hat1) as Hat2.
  pose proof (com_loop (fuel_of i) false i _ _ Hat2 ltac:(apply at_fuel in Hat2; lia)) as Hc.
  change (line (adv s1 [35%Z])) with (line s1) in Hc. change (lpos (adv s1 [35%Z])) with (lpos s1 + 1)%nat in Hc.
  pose proof (skipc_length t false (line s1) (lpos s1 + 1)) as HL2.
  destruct (skipc t false (line s1) (lpos s1 + 1)) as [[r ln] lp]. destruct Hc as (s2 & Hat3 & Hln & Hlp & Hc). subst ln lp.
  assert (E : scan_loop (S n) i s = scan_loop n i s2).
  { cbn [scan_loop]. unfold bind at 1. unfold readNextSignificant, with_fuel. rewrite Hr.
    change (is_name_start 35) with false. change (is_punct 35) with false.
    change (is_digit 35 || (35 =? 45)) with false. change (35 =? 35) with true. cbn beta iota.
    unfold bind at 1. rewrite Hc. reflexivity. }
  rewrite E. intros X. cbn [List.length] in HL. apply (IH i s2 r l col Hat3); [lia|exact X].
Qed.
Lemma lex_why n : forall i s cs ts last s', at_ i s cs -> lex_loop n i s = Ok (ts ++ [last]) s' -> tkind last = KIllegal -> complaint (clast n cs (line s) (lpos s)) (tlit last).
Proof.
  induction n as [|n IH]; intros i s cs ts last s' Hat Hl Hk; [discriminate|]. cbn [lex_loop] in Hl. cbn [clast].
  pose proof (scan_agrees _ _ _ Hat) as Ha. pose proof (scan_loop_why (fuel_of i) i s cs) as Hw. unfold cscan in Ha, Hw.
  destruct (skip cs (Norm false) (line s) (lpos s)) as [[r ln1] lp1] eqn:Es. cbn [fst] in Hw.
  destruct (ctoken r ln1 lp1) as [l c|l c|k lit l c r2 ln2 lp2] eqn:Ec; cbn [agrees] in Ha.
  - destruct Ha as (s1 & Ha). rewrite Ha in Hl. cbn [is_last tkind] in Hl. injection Hl as E _. destruct ts as [|? [|? ?]]; try discriminate. cbn in E. injection E as <-. discriminate.
  - destruct Ha as (msg & s1 & Ha). destruct (Hw l c Hat ltac:(apply at_fuel in Hat; lia) eq_refl) as (tok & s2 & E & Co).
    unfold scan, with_fuel in Ha, Hl. rewrite E in Ha, Hl. assert (Et : tok = illegal msg l c) by congruence. subst tok. cbn [is_last illegal tkind] in Hl. apply (f_equal (fun o => match o with Ok x _ => x | _ => [] end)) in Hl. destruct ts as [|? [|? ?]]; try discriminate. cbn [app] in Hl.
    assert (last = illegal msg l c) by congruence. subst last. exact Co.
  - destruct Ha as (s1 & Ha & Hat' & <- & <-). rewrite Ha in Hl. apply ctoken_kind in Ec as [Hk1 Hk2].
    assert (El : is_last (mkTok k lit l c) = false) by (destruct k; try reflexivity; congruence). rewrite El in Hl.
    destruct (lex_loop n i s1) as [ts1 s2| |] eqn:E1; try discriminate. apply (f_equal (fun o => match o with Ok x _ => x | _ => [] end)) in Hl.
    destruct ts as [|t0 ts]; cbn [app] in Hl.
    + exfalso. assert (Ek : last = mkTok k lit l c) by congruence. subst last. cbn in Hk. congruence.
    + assert (Ets : ts1 = ts ++ [last]) by congruence. subst ts1. exact (IH i s1 r2 ts last s2 Hat' E1 Hk).
Qed.
