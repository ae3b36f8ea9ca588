(** * LexAgree: the code-point lexer [LexCP] against the lexical grammar [LexSpec], lexeme by lexeme. *)
From Verif Require Import Base Utf8 Utf8Proofs Lexer LexCP LexSpec.
From Coq Require Import ZifyBool ZifyNat ZifyN.
Local Open Scope lex_scope.

(** ** Character classes. *)
Lemma is_digit_spec c : is_digit c = true <-> digit c.
Proof. unfold is_digit, digit. lia. Qed.
Lemma is_digit_false c : is_digit c = false <-> ~ digit c.
Proof. unfold is_digit, digit. lia. Qed.
Lemma is_name_start_spec c : is_name_start c = true <-> letter c.
Proof. unfold is_name_start, is_lower, is_upper, letter. lia. Qed.
Lemma is_name_cont_spec c : is_name_cont c = true <-> name_char c.
Proof. unfold is_name_cont, is_digit, is_lower, is_upper, name_char, letter, digit. lia. Qed.
Lemma is_punct_spec c : is_punct c = true <-> punctuator c \/ c = 46%Z.
Proof. unfold is_punct, punctuator. cbn [In]. lia. Qed.

Lemma span_sound p cs a b : span p cs = (a, b) ->
  cs = a ++ b /\ Forall (fun c => p c = true) a /\ match b with c :: _ => p c = false | [] => True end.
Proof.
  revert a b; induction cs as [|c t IH]; cbn; intros a b.
  - intros H; injection H as <- <-. auto.
  - destruct (p c) eqn:E.
    + destruct (span p t) as [a' b']. intros H; injection H as <- <-.
      destruct (IH _ _ eq_refl) as (-> & H1 & H2). repeat split; auto.
    + intros H; injection H as <- <-. repeat split; auto.
Qed.

Lemma span_complete p a b : Forall (fun c => p c = true) a ->
  match b with c :: _ => p c = false | [] => True end -> span p (a ++ b) = (a, b).
Proof.
  induction 1 as [|c a Hc Ha IH]; intros Hb; cbn.
  - destruct b as [|c t]; cbn; [reflexivity|]. rewrite Hb. reflexivity.
  - rewrite Hc, IH by exact Hb. reflexivity.
Qed.

(** [text] is the specification's [chars_utf8] on 31-bit values. *)
Lemma text_chars v : Forall (fun c => 0 <= c < 2147483648)%Z v -> text v = chars_utf8 v.
Proof.
  induction 1 as [|c v Hc Hv IH]; [reflexivity|]. cbn [text chars_utf8 flat_map]. f_equal; [|exact IH].
  destruct (scalarb c) eqn:E; [apply encode_rune_utf8, scalarb_spec, E|].
  apply encode_rune_invalid; [lia|]. intros H. apply scalarb_spec in H. congruence.
Qed.

Lemma clean_range cs : clean cs -> Forall (fun c => 0 <= c < 2147483648)%Z cs.
Proof. apply Forall_impl. intros c [H _]. unfold scalar in H. lia. Qed.

Lemma chars_utf8_clean cs : clean cs -> chars_utf8 cs = utf8s cs.
Proof.
  induction 1 as [|c v [Hc _] Hv IH]; [reflexivity|]. cbn [chars_utf8 utf8s flat_map].
  rewrite (proj2 (scalarb_spec c) Hc). f_equal. exact IH.
Qed.

Lemma clean_app_l a b : clean (a ++ b) -> clean a.
Proof. intros H. apply Forall_app in H. tauto. Qed.
Lemma clean_app_r a b : clean (a ++ b) -> clean b.
Proof. intros H. apply Forall_app in H. tauto. Qed.

Lemma text_clean w : clean w -> text w = utf8s w.
Proof. intros H. rewrite text_chars by (apply clean_range, H). apply chars_utf8_clean, H. Qed.

(** ** Numbers. *)
Definition nodigit (r : list Z) : Prop := ends digit r.

Lemma nodigit_b r : nodigit r <-> match r with c :: _ => is_digit c = false | [] => True end.
Proof. unfold nodigit, ends. destruct r; [tauto|]. rewrite is_digit_false. tauto. Qed.

Lemma digits_b ds : Forall digit ds <-> Forall (fun c => is_digit c = true) ds.
Proof. rewrite !Forall_forall. split; intros H x Hx; apply is_digit_spec, H, Hx. Qed.

Lemma cdigits_sound cs d r : cdigits cs = Some (d, r) -> cs = d ++ r /\ d <> [] /\ Forall digit d /\ nodigit r.
Proof.
  unfold cdigits. destruct (span is_digit cs) as [a b] eqn:E. destruct a as [|x a]; [discriminate|].
  intros H; injection H as <- <-. apply span_sound in E as (-> & H1 & H2).
  rewrite digits_b, nodigit_b. repeat split; auto. discriminate.
Qed.

Lemma cdigits_complete d r : d <> [] -> Forall digit d -> nodigit r -> cdigits (d ++ r) = Some (d, r).
Proof.
  intros H1 H2 H3. unfold cdigits. rewrite span_complete by (rewrite <- ?digits_b, <- ?nodigit_b; assumption).
  destruct d; [congruence|reflexivity].
Qed.

Lemma c_sign_spec cs sg cs1 : c_sign cs = (sg, cs1) -> cs = sg ++ cs1 /\ (sg = [] \/ sg = [45%Z]).
Proof.
  unfold c_sign. destruct cs as [|c t].
  - intros H; injection H as <- <-. auto.
  - destruct (Z.eqb_spec c 45) as [->|]; intros H; injection H as <- <-; auto.
Qed.

Lemma c_intpart_sound cs ip r : c_intpart cs = Some (ip, r) -> cs = ip ++ r /\ natural_part ip /\ nodigit r.
Proof.
  unfold c_intpart. destruct cs as [|c t]; [discriminate|]. destruct (Z.eqb_spec c 48) as [->|Hne].
  - destruct t as [|d t].
    + intros H; injection H as <- <-. repeat split; constructor.
    + destruct (is_digit d) eqn:E; [discriminate|]. intros H; injection H as <- <-.
      repeat split; [constructor|]. apply is_digit_false. exact E.
  - intros H. apply cdigits_sound in H as (E & H1 & H2 & H3). destruct ip as [|d ds]; [congruence|].
    cbn in E. injection E as -> ->. repeat split; auto. inversion H2; subst.
    constructor; [unfold digit in *; lia|assumption].
Qed.

Lemma c_intpart_complete ip r : natural_part ip -> nodigit r -> c_intpart (ip ++ r) = Some (ip, r).
Proof.
  intros H Hr. destruct H as [|d ds Hd Hds].
  - cbn. destruct r as [|x r]; [reflexivity|]. apply nodigit_b in Hr. rewrite Hr. reflexivity.
  - cbn [c_intpart app]. replace (d =? 48) with false by lia.
    apply (cdigits_complete (d :: ds)); [discriminate| |exact Hr]. constructor; [unfold digit; lia|exact Hds].
Qed.

Lemma c_fracpart_sound cs fp fl r : c_fracpart cs = Some (fp, fl, r) ->
  cs = fp ++ r /\ ((fl = false /\ fp = [] /\ ends (fun c => c = 46%Z) r) \/ (fl = true /\ fractional_part fp /\ nodigit r)).
Proof.
  unfold c_fracpart. destruct cs as [|c t].
  - intros H; injection H as <- <- <-. split; [reflexivity|]. left. repeat split.
  - destruct (Z.eqb_spec c 46) as [->|Hne].
    + destruct (cdigits t) as [[d r']|] eqn:E; [|discriminate]. intros H; injection H as <- <- <-.
      apply cdigits_sound in E as (-> & H1 & H2 & H3). split; [reflexivity|]. right. repeat split; auto.
      exists d. auto.
    + intros H; injection H as <- <- <-. split; [reflexivity|]. left. repeat split. exact Hne.
Qed.

Lemma c_fracpart_none r : ends (fun c => c = 46%Z) r -> c_fracpart r = Some ([], false, r).
Proof. unfold c_fracpart, ends. destruct r as [|c t]; [reflexivity|]. intros H. replace (c =? 46) with false by lia. reflexivity. Qed.

Lemma c_fracpart_some f r : fractional_part f -> nodigit r -> c_fracpart (f ++ r) = Some (f, true, r).
Proof.
  intros (ds & -> & H1 & H2) Hr. cbn. rewrite cdigits_complete by assumption. reflexivity.
Qed.

Lemma c_exppart_sound cs ep fl r : c_exppart cs = Some (ep, fl, r) ->
  cs = ep ++ r /\ ((fl = false /\ ep = [] /\ ends exp_mark r) \/ (fl = true /\ exponent_part ep /\ nodigit r)).
Proof.
  unfold c_exppart. destruct cs as [|c t].
  - intros H; injection H as <- <- <-. split; [reflexivity|]. left. repeat split.
  - destruct ((c =? 101) || (c =? 69)) eqn:Ec.
    + destruct (c_expsign t) as [sg t'] eqn:Es. destruct (cdigits t') as [[d r']|] eqn:E; [|discriminate].
      intros H; injection H as <- <- <-. apply cdigits_sound in E as (-> & H1 & H2 & H3).
      assert (Hs : t = sg ++ d ++ r' /\ (sg = [] \/ sg = [43%Z] \/ sg = [45%Z])).
      { unfold c_expsign in Es. destruct t as [|x t].
        - injection Es as <- Es. rewrite <- Es. auto.
        - destruct ((x =? 43) || (x =? 45)) eqn:Ex.
          + injection Es as <- ->. split; [reflexivity|]. right.
            assert (x = 43%Z \/ x = 45%Z) as [->| ->] by lia; auto.
          + injection Es as <- Es. rewrite <- Es. auto. }
      destruct Hs as [-> Hs]. split; [cbn; rewrite <- app_assoc; reflexivity|].
      right. repeat split; auto. exists c, sg, d. repeat split; auto. lia.
    + intros H; injection H as <- <- <-. split; [reflexivity|]. left. repeat split. cbn. unfold exp_mark. lia.
Qed.

Lemma c_exppart_none r : ends exp_mark r -> c_exppart r = Some ([], false, r).
Proof.
  unfold c_exppart, ends, exp_mark. destruct r as [|c t]; [reflexivity|]. intros H.
  replace ((c =? 101) || (c =? 69)) with false by lia. reflexivity.
Qed.

Lemma c_exppart_some e r : exponent_part e -> nodigit r -> c_exppart (e ++ r) = Some (e, true, r).
Proof.
  intros (x & sg & ds & -> & Hx & Hsg & H1 & H2) Hr. cbn [c_exppart app].
  replace ((x =? 101) || (x =? 69)) with true by lia.
  assert (E : c_expsign ((sg ++ ds) ++ r) = (sg, ds ++ r)).
  { destruct Hsg as [->|[->| ->]]; [|reflexivity|reflexivity]. cbn [app]. unfold c_expsign.
    destruct ds as [|d ds]; [congruence|]. cbn [app]. inversion H2; subst. unfold digit in *.
    replace ((d =? 43) || (d =? 45)) with false by lia. reflexivity. }
  rewrite E, cdigits_complete by assumption. reflexivity.
Qed.

Lemma cnum_sound cs lex fl r : cnum cs = Some (lex, fl, r) ->
  cs = lex ++ r /\ exists stop, lexeme (if fl then KFloat else KInt) lex (utf8s lex) stop /\ ends stop r.
Proof.
  unfold cnum. destruct (c_sign cs) as [sg cs1] eqn:E0. apply c_sign_spec in E0 as [-> Hsg].
  destruct (c_intpart cs1) as [[ip cs2]|] eqn:E1; [|discriminate]. apply c_intpart_sound in E1 as (-> & H1 & Hd1).
  destruct (c_fracpart cs2) as [[[fp f1] cs3]|] eqn:E2; [|discriminate]. apply c_fracpart_sound in E2 as [-> H2].
  destruct (c_exppart cs3) as [[[ep f2] cs4]|] eqn:E3; [|discriminate]. apply c_exppart_sound in E3 as [-> H3].
  intros H; injection H as <- <- <-. split; [rewrite <- !app_assoc; reflexivity|].
  assert (HI : integer_part (sg ++ ip)).
  { destruct Hsg as [->| ->]; [left; exact H1|right; exists ip; auto]. }
  replace (sg ++ ip ++ fp ++ ep) with ((sg ++ ip) ++ fp ++ ep) by (rewrite <- app_assoc; reflexivity).
  destruct H2 as [(-> & -> & H2)|(-> & H2 & Hd2)]; destruct H3 as [(-> & -> & H3)|(-> & H3 & Hd3)]; cbn [orb app] in *.
  - rewrite app_nil_r. eexists. split; [apply lx_int, HI|]. unfold ends, nodigit in *. destruct cs4; [tauto|].
    intros [A|[A|A]]; [apply Hd1|apply H2|apply H3]; exact A.
  - eexists. split; [apply lx_float_exp; assumption|exact Hd3].
  - rewrite app_nil_r. eexists. split; [apply lx_float_frac; assumption|]. unfold ends, nodigit in *.
    destruct cs4; [tauto|]. intros [A|A]; [apply Hd2|apply H3]; exact A.
  - eexists. split; [apply lx_float_both; assumption|exact Hd3].
Qed.

Lemma natural_head ip : natural_part ip -> exists d t, ip = d :: t /\ digit d.
Proof. intros []; eexists _, _; (split; [reflexivity|]); unfold digit; lia. Qed.

Lemma integer_sign w r : integer_part w ->
  exists sg ip, w = sg ++ ip /\ natural_part ip /\ c_sign (w ++ r) = (sg, ip ++ r).
Proof.
  intros [H|(u & -> & H)].
  - exists [], w. repeat split; auto. destruct (natural_head _ H) as (d & t & -> & Hd). cbn.
    unfold digit in Hd. replace (d =? 45) with false by lia. reflexivity.
  - exists [45%Z], u. repeat split; auto.
Qed.

Lemma cnum_int w r : integer_part w -> ends (fun c => digit c \/ c = 46%Z \/ exp_mark c) r ->
  cnum (w ++ r) = Some (w, false, r).
Proof.
  intros H Hr. destruct (integer_sign w r H) as (sg & ip & -> & Hip & E). unfold cnum. rewrite E.
  unfold ends in Hr.
  rewrite c_intpart_complete; [|exact Hip|unfold nodigit, ends; destruct r; tauto].
  rewrite c_fracpart_none by (unfold ends; destruct r; tauto).
  rewrite c_exppart_none by (unfold ends; destruct r; tauto). cbn. rewrite app_nil_r. reflexivity.
Qed.

Lemma frac_head f r : fractional_part f -> nodigit (f ++ r) /\ ends exp_mark (f ++ r).
Proof. intros (ds & -> & _ & _). cbn. unfold digit, exp_mark. split; lia. Qed.

Lemma exp_head e r : exponent_part e -> nodigit (e ++ r) /\ ends (fun c => c = 46%Z) (e ++ r).
Proof. intros (x & sg & ds & -> & Hx & _). cbn. unfold digit. split; lia. Qed.

Lemma cnum_frac w f r : integer_part w -> fractional_part f -> ends (fun c => digit c \/ exp_mark c) r ->
  cnum ((w ++ f) ++ r) = Some (w ++ f, true, r).
Proof.
  intros H Hf Hr. rewrite <- app_assoc. destruct (integer_sign w (f ++ r) H) as (sg & ip & -> & Hip & E).
  unfold cnum. rewrite E. unfold ends in Hr.
  rewrite c_intpart_complete; [|exact Hip|apply frac_head, Hf].
  rewrite c_fracpart_some; [|exact Hf|unfold nodigit, ends; destruct r; tauto].
  rewrite c_exppart_none by (unfold ends; destruct r; tauto). rewrite app_nil_r, <- app_assoc. reflexivity.
Qed.

Lemma cnum_exp w e r : integer_part w -> exponent_part e -> ends digit r ->
  cnum ((w ++ e) ++ r) = Some (w ++ e, true, r).
Proof.
  intros H He Hr. rewrite <- app_assoc. destruct (integer_sign w (e ++ r) H) as (sg & ip & -> & Hip & E).
  unfold cnum. rewrite E.
  rewrite c_intpart_complete; [|exact Hip|apply exp_head, He].
  rewrite c_fracpart_none by (apply exp_head, He).
  rewrite c_exppart_some by assumption. rewrite <- app_assoc. reflexivity.
Qed.

Lemma cnum_both w f e r : integer_part w -> fractional_part f -> exponent_part e -> ends digit r ->
  cnum ((w ++ f ++ e) ++ r) = Some (w ++ f ++ e, true, r).
Proof.
  intros H Hf He Hr. rewrite <- !app_assoc. destruct (integer_sign w (f ++ e ++ r) H) as (sg & ip & -> & Hip & E).
  unfold cnum. rewrite E.
  rewrite c_intpart_complete; [|exact Hip|apply frac_head, Hf].
  rewrite c_fracpart_some; [|exact Hf|apply exp_head, He].
  rewrite c_exppart_some by assumption. rewrite <- app_assoc. reflexivity.
Qed.

(** ** Quoted strings. *)
Lemma c_escape_spec e x : c_escape e = Some x <-> escape e x.
Proof.
  unfold c_escape, escape, c_dq, c_fsl, c_bsl, c_bck, c_ff, c_lf, c_cr, c_tab. cbn [In]. split.
  - repeat match goal with
    | |- (if ?e =? ?n then _ else _) = _ -> _ => destruct (Z.eqb_spec e n) as [->|?]
    end; intros H; try discriminate; injection H as <-; tauto.
  - intros H. repeat destruct H as [H|H]; try contradiction; injection H as <- <-; reflexivity.
Qed.

Lemma hex_spec c x : hexdigit c x <-> hexRuneToInt c = x /\ (0 <= x)%Z.
Proof.
  unfold hexRuneToInt. split.
  - intros [c' H|c' H|c' H].
    + replace ((48 <=? c') && (c' <=? 57)) with true by lia. split; lia.
    + replace ((48 <=? c') && (c' <=? 57)) with false by lia. replace ((65 <=? c') && (c' <=? 70)) with true by lia. split; lia.
    + replace ((48 <=? c') && (c' <=? 57)) with false by lia. replace ((65 <=? c') && (c' <=? 70)) with false by lia.
      replace ((97 <=? c') && (c' <=? 102)) with true by lia. split; lia.
  - intros [H Hx]. destruct ((48 <=? c) && (c <=? 57)) eqn:E1; [subst x; apply hex_digit; lia|].
    destruct ((65 <=? c) && (c <=? 70)) eqn:E2; [subst x; apply hex_upper; lia|].
    destruct ((97 <=? c) && (c <=? 102)) eqn:E3; [subst x; apply hex_lower; lia|]. lia.
Qed.

Lemma hex_range c x : hexdigit c x -> (0 <= x < 16)%Z.
Proof. intros []; lia. Qed.

Lemma hex_neg c : hexRuneToInt c = (-1)%Z \/ (0 <= hexRuneToInt c)%Z.
Proof.
  unfold hexRuneToInt. destruct ((48 <=? c) && (c <=? 57)) eqn:E1; [lia|].
  destruct ((65 <=? c) && (c <=? 70)) eqn:E2; [lia|]. destruct ((97 <=? c) && (c <=? 102)) eqn:E3; lia.
Qed.

Lemma lor_hex a b c d : (0 <= a < 16 -> 0 <= b < 16 -> 0 <= c < 16 -> 0 <= d < 16 ->
  Z.lor (Z.lor (Z.lor (Z.shiftl a 12) (Z.shiftl b 8)) (Z.shiftl c 4)) d = a * 4096 + b * 256 + c * 16 + d)%Z.
Proof.
  intros Ha Hb Hc Hd. apply Z.eqb_eq.
  set (P := fun a b c d => Z.eqb (Z.lor (Z.lor (Z.lor (Z.shiftl a 12) (Z.shiftl b 8)) (Z.shiftl c 4)) d) (a * 4096 + b * 256 + c * 16 + d)).
  change (P a b c d = true).
  assert (H : forallb (fun a => forallb (fun b => forallb (fun c => forallb (P a b c)
     (map Z.of_nat (seq 0 16))) (map Z.of_nat (seq 0 16))) (map Z.of_nat (seq 0 16))) (map Z.of_nat (seq 0 16)) = true)
    by (vm_compute; reflexivity).
  apply (fun H => sweep _ 16 H a Ha) in H. cbn beta in H.
  apply (fun H => sweep _ 16 H b Hb) in H. cbn beta in H.
  apply (fun H => sweep _ 16 H c Hc) in H. cbn beta in H.
  apply (fun H => sweep _ 16 H d Hd) in H. exact H.
Qed.

Lemma unicode_sound h1 h2 h3 h4 : (unicodeCodePointToRune h1 h2 h3 h4 <? 0) = false ->
  exists x1 x2 x3 x4, hexdigit h1 x1 /\ hexdigit h2 x2 /\ hexdigit h3 x3 /\ hexdigit h4 x4 /\
    unicodeCodePointToRune h1 h2 h3 h4 = (x1 * 4096 + x2 * 256 + x3 * 16 + x4)%Z.
Proof.
  unfold unicodeCodePointToRune. intros H.
  assert (G : forall a b c d, (Z.lor (Z.lor (Z.lor (Z.shiftl a 12) (Z.shiftl b 8)) (Z.shiftl c 4)) d <? 0) = false ->
     (0 <= a /\ 0 <= b /\ 0 <= c /\ 0 <= d)%Z).
  { intros a b c d Hl. apply Z.ltb_ge in Hl. apply Z.lor_nonneg in Hl as [Hl Hd].
    apply Z.lor_nonneg in Hl as [Hl Hc]. apply Z.lor_nonneg in Hl as [Ha Hb].
    rewrite Z.shiftl_nonneg in Ha, Hb, Hc. auto. }
  destruct (G _ _ _ _ H) as (A1 & A2 & A3 & A4).
  assert (X1 : hexdigit h1 (hexRuneToInt h1)) by (apply hex_spec; auto).
  assert (X2 : hexdigit h2 (hexRuneToInt h2)) by (apply hex_spec; auto).
  assert (X3 : hexdigit h3 (hexRuneToInt h3)) by (apply hex_spec; auto).
  assert (X4 : hexdigit h4 (hexRuneToInt h4)) by (apply hex_spec; auto).
  eexists _, _, _, _. repeat (split; [eassumption|]). apply lor_hex; eapply hex_range; eassumption.
Qed.

Lemma unicode_complete h1 h2 h3 h4 x1 x2 x3 x4 :
  hexdigit h1 x1 -> hexdigit h2 x2 -> hexdigit h3 x3 -> hexdigit h4 x4 ->
  unicodeCodePointToRune h1 h2 h3 h4 = (x1 * 4096 + x2 * 256 + x3 * 16 + x4)%Z
  /\ (unicodeCodePointToRune h1 h2 h3 h4 <? 0) = false.
Proof.
  intros H1 H2 H3 H4. pose proof (hex_range _ _ H1). pose proof (hex_range _ _ H2).
  pose proof (hex_range _ _ H3). pose proof (hex_range _ _ H4).
  apply hex_spec in H1 as [<- _], H2 as [<- _], H3 as [<- _], H4 as [<- _].
  unfold unicodeCodePointToRune. rewrite lor_hex by assumption. split; [reflexivity|]. apply Z.ltb_ge. lia.
Qed.

Lemma cstr_sound cs v r : cstr cs = Some (v, r) -> exists b, cs = b ++ 34%Z :: r /\ string_chars b v.
Proof.
  assert (H : forall n cs v r, (List.length cs <= n)%nat -> cstr cs = Some (v, r) ->
     exists b, cs = b ++ 34%Z :: r /\ string_chars b v).
  2:{ apply (H (List.length cs)). lia. }
  clear. induction n as [|n IH]; intros [|c t] v r Hn Hc; try discriminate; [cbn in Hn; lia|].
  cbn [cstr] in Hc. cbn [List.length] in Hn.
  destruct (Z.eqb_spec c 34) as [->|Hq]. { injection Hc as <- <-. exists []. split; [reflexivity|constructor]. }
  destruct ((c <? 32) && negb (c =? c_tab)) eqn:Ect; [discriminate|].
  destruct (Z.eqb_spec c c_bsl) as [Ec|Hb].
  - unfold c_bsl in Ec. subst c. destruct t as [|e t1]; [discriminate|]. cbn [List.length] in Hn.
    destruct (Z.eqb_spec e 117) as [->|Hu].
    + destruct t1 as [|h1 [|h2 [|h3 [|h4 t2]]]]; try discriminate. cbv zeta in Hc. cbn [List.length] in Hn.
      destruct (_ <? 0) eqn:Eu; [discriminate|].
      destruct (unicode_sound _ _ _ _ Eu) as (x1 & x2 & x3 & x4 & H1 & H2 & H3 & H4 & Ev). rewrite Ev in Hc.
      unfold push in Hc. destruct (cstr t2) as [[v' r']|] eqn:E2; [|discriminate]. injection Hc as <- <-.
      destruct (IH t2 v' r' ltac:(lia) E2) as (b & -> & Hsc). exists (92 :: 117 :: h1 :: h2 :: h3 :: h4 :: b)%Z.
      split; [reflexivity|]. cbn [app]. apply sc_unicode; assumption.
    + destruct (c_escape e) as [x|] eqn:Ee; [|discriminate]. apply c_escape_spec in Ee.
      unfold push in Hc. destruct (cstr t1) as [[v' r']|] eqn:E2; [|discriminate]. injection Hc as <- <-.
      destruct (IH t1 v' r' ltac:(lia) E2) as (b & -> & Hsc). exists (92 :: e :: b)%Z.
      split; [reflexivity|]. cbn [app]. apply sc_escape; assumption.
  - unfold push in Hc. destruct (cstr t) as [[v' r']|] eqn:E2; [|discriminate]. injection Hc as <- <-.
    destruct (IH t v' r' ltac:(lia) E2) as (b & -> & Hsc). exists (c :: b).
    split; [reflexivity|]. cbn [app]. unfold c_tab, c_bsl in *. apply sc_char; [lia|assumption|assumption|assumption].
Qed.

Lemma cstr_complete b v r : string_chars b v -> cstr (b ++ 34%Z :: r) = Some (v, r).
Proof.
  induction 1 as [|c b v Hc Hq Hb H IH|e x b v He H IH|h1 h2 h3 h4 x1 x2 x3 x4 b v H1 H2 H3 H4 H IH].
  - reflexivity.
  - cbn [app cstr]. replace (c =? 34) with false by lia. unfold c_tab, c_bsl.
    replace ((c <? 32) && negb (c =? 9)) with false by lia. replace (c =? 92) with false by lia.
    rewrite IH. reflexivity.
  - cbn [app cstr]. replace (92 =? 34) with false by lia. unfold c_tab, c_bsl.
    replace ((92 <? 32) && negb (92 =? 9)) with false by lia. replace (92 =? 92) with true by lia.
    apply c_escape_spec in He. destruct (Z.eqb_spec e 117) as [->|]; [discriminate|]. rewrite He, IH. reflexivity.
  - cbn [app cstr]. replace (92 =? 34) with false by lia. unfold c_tab, c_bsl.
    replace ((92 <? 32) && negb (92 =? 9)) with false by lia. replace (92 =? 92) with true by lia.
    replace (117 =? 117) with true by lia. cbv zeta.
    destruct (unicode_complete _ _ _ _ _ _ _ _ H1 H2 H3 H4) as [-> E].
    rewrite E, IH. reflexivity.
Qed.

Lemma string_chars_range b v : string_chars b v -> Forall (fun c => 0 <= c < 2147483648)%Z b ->
  Forall (fun c => 0 <= c < 2147483648)%Z v.
Proof.
  induction 1 as [|c b v Hc Hq Hb H IH|e x b v He H IH|h1 h2 h3 h4 x1 x2 x3 x4 b v H1 H2 H3 H4 H IH]; intros Hf.
  - constructor.
  - inversion Hf; subst. constructor; auto.
  - inversion Hf as [|? ? _ Hf1]; subst. inversion Hf1; subst. constructor; [|auto].
    unfold escape in He. cbn [In] in He. repeat destruct He as [He|He]; try contradiction; injection He as <- <-; lia.
  - repeat match goal with H : Forall _ (_ :: _) |- _ => inversion H; clear H; subst end.
    pose proof (hex_range _ _ H1). pose proof (hex_range _ _ H2). pose proof (hex_range _ _ H3).
    pose proof (hex_range _ _ H4). constructor; [lia|auto].
Qed.

(** ** Block strings. *)
Definition block_safe (cs : list Z) : Prop :=
  Forall (fun c => c = 9 \/ c = 10 \/ 32 <= c)%Z cs /\ ~ contains (92 :: 92 :: triple)%Z cs.

Lemma contains_app_r p a b : contains p b -> contains p (a ++ b).
Proof. intros (x & y & ->). exists (a ++ x), y. rewrite <- !app_assoc. reflexivity. Qed.

Lemma contains_app_l p a b : contains p a -> contains p (a ++ b).
Proof. intros (x & y & ->). exists x, (y ++ b). rewrite <- !app_assoc. reflexivity. Qed.

Lemma block_safe_app a b : block_safe (a ++ b) -> block_safe b.
Proof.
  intros [H1 H2]. split; [apply Forall_app in H1; tauto|]. intros H. apply H2. apply contains_app_r, H.
Qed.

Lemma two_quotes_spec t : two_quotes t = true <-> exists u, t = 34%Z :: 34%Z :: u.
Proof.
  destruct t as [|x [|y u]]; cbn; split; try discriminate; try (intros [u' H]; discriminate).
  - intros H. assert (x = 34%Z /\ y = 34%Z) as [-> ->] by lia. eauto.
  - intros [u' H]. injection H as -> -> _. reflexivity.
Qed.

(** Two quotes at the start of [b ++ triple ++ r] are two quotes at the start of [b ++ triple]. *)
Lemma two_quotes_body b r : two_quotes (b ++ triple ++ r) = true <-> exists u, b ++ triple = 34%Z :: 34%Z :: u.
Proof.
  rewrite two_quotes_spec. destruct b as [|x [|y b]]; cbn [app triple]; split; intros [u H].
  - eexists; reflexivity.
  - eexists; reflexivity.
  - injection H as -> _. eexists; reflexivity.
  - injection H as -> _. eexists; reflexivity.
  - injection H as -> -> _. eexists; reflexivity.
  - injection H as -> -> _. eexists; reflexivity.
Qed.

Lemma cblk_sound cs v r : block_safe cs -> cblk cs = Some (v, r) ->
  exists b, cs = b ++ triple ++ r /\ block_chars b v.
Proof.
  assert (H : forall n cs v r, (List.length cs <= n)%nat -> block_safe cs -> cblk cs = Some (v, r) ->
     exists b, cs = b ++ triple ++ r /\ block_chars b v).
  2:{ apply (H (List.length cs)). lia. }
  clear. induction n as [|n IH]; intros [|c t] v r Hn Hs Hc; try discriminate; [cbn in Hn; lia|].
  cbn [cblk] in Hc. cbn [List.length] in Hn.
  pose proof (block_safe_app [c] t Hs) as Hst.
  pose proof (Forall_inv (proj1 Hs)) as Hcc. cbn beta in Hcc.
  destruct (Z.eqb_spec c c_bsl) as [Ec|Hb].
  - unfold c_bsl in Ec. subst c. destruct t as [|e t1]; [discriminate|]. cbn [List.length] in Hn.
    pose proof (block_safe_app [e] t1 Hst) as Hs1.
    pose proof (Forall_inv (proj1 Hst)) as Hce. cbn beta in Hce.
    destruct ((e =? 34) && two_quotes t1) eqn:E2.
    + apply andb_prop in E2 as [Ee E2]. assert (e = 34%Z) by lia. subst e.
      apply two_quotes_spec in E2 as [t2 ->]. unfold push in Hc.
      destruct (cblk t2) as [[v' r']|] eqn:E3; [|discriminate]. injection Hc as <- <-.
      cbn [List.length] in Hn.
      destruct (IH t2 v' r' ltac:(lia) (block_safe_app [34%Z; 34%Z] t2 Hs1) E3) as (b & -> & Hbc).
      exists (92 :: 34 :: 34 :: 34 :: b)%Z. split; [reflexivity|]. cbn [app]. apply bc_escape, Hbc.
    + unfold push in Hc. destruct (cblk t1) as [[v' r']|] eqn:E3; [|discriminate]. injection Hc as <- <-.
      destruct (IH t1 v' r' ltac:(lia) Hs1 E3) as (b & -> & Hbc).
      exists (92 :: e :: b)%Z. split; [reflexivity|]. cbn [app].
      assert (Hne : ~ prefix triple (e :: b ++ triple)).
      { intros [u Hu]. cbn in Hu. injection Hu as -> Hu. cbn [Z.eqb Pos.eqb andb] in E2.
        assert (two_quotes (b ++ triple ++ r') = true) by (apply two_quotes_body; eauto). congruence. }
      apply bc_char; [lia| | |apply bc_char; [lia|exact Hne| |exact Hbc]].
      * intros [u Hu]. discriminate.
      * intros [u Hu]. cbn in Hu. injection Hu as Hu1 Hu. apply Hne. exists u. cbn. congruence.
      * intros [u Hu]. cbn in Hu. injection Hu as -> Hu. apply (proj2 Hs). exists [], (u ++ r').
        change (92 :: 92 :: (b ++ triple ++ r') = 92 :: 92 :: ((triple ++ u) ++ r'))%Z.
        do 2 f_equal. rewrite app_assoc. f_equal. exact Hu.
  - destruct (Z.eqb_spec c c_cr) as [->|Hcr]; [unfold c_cr in Hcc; lia|].
    unfold c_tab, c_lf in Hc.
    replace ((c <? 32) && negb (c =? 9) && negb (c =? 10)) with false in Hc by lia.
    destruct ((c =? 34) && two_quotes t) eqn:E2.
    + apply andb_prop in E2 as [Ee E2]. assert (c = 34%Z) by lia. subst c.
      apply two_quotes_spec in E2 as [t2 ->]. injection Hc as <- <-. exists []. split; [reflexivity|constructor].
    + unfold push in Hc. destruct (cblk t) as [[v' r']|] eqn:E3; [|discriminate]. injection Hc as <- <-.
      destruct (IH t v' r' ltac:(lia) Hst E3) as (b & -> & Hbc). exists (c :: b). split; [reflexivity|].
      cbn [app]. apply bc_char; [lia| | |exact Hbc].
      * intros [u Hu]. cbn in Hu. injection Hu as -> Hu. cbn [Z.eqb Pos.eqb andb] in E2.
        assert (two_quotes (b ++ triple ++ r') = true) by (apply two_quotes_body; eauto). congruence.
      * intros [u Hu]. cbn in Hu. injection Hu as -> _. apply Hb. reflexivity.
Qed.

Lemma cblk_complete b v r : block_chars b v -> block_safe (b ++ triple ++ r) ->
  cblk (b ++ triple ++ r) = Some (v, r).
Proof.
  assert (H : forall n b v, (List.length b <= n)%nat -> block_chars b v -> block_safe (b ++ triple ++ r) ->
     cblk (b ++ triple ++ r) = Some (v, r)).
  2:{ apply (H (List.length b) b v). lia. }
  clear. induction n as [|n IH]; intros b v Hn Hbc Hs.
  { destruct b; [|cbn in Hn; lia]. inversion Hbc; subst. reflexivity. }
  destruct Hbc as [|b v Hbc|c b v Hc Hp1 Hp2 Hbc].
  - reflexivity.
  - cbn [app cblk]. replace (92 =? c_bsl) with true by reflexivity.
    replace ((34 =? 34) && two_quotes (34%Z :: 34%Z :: b ++ triple ++ r)) with true by reflexivity.
    rewrite (IH b v); [reflexivity|cbn in Hn; lia|exact Hbc|].
    apply (block_safe_app [92%Z; 34%Z; 34%Z; 34%Z]), Hs.
  - cbn [List.length] in Hn. cbn [app] in *.
    destruct (Z.eqb_spec c 92) as [->|Hne].
    + (* a backslash that does not start an escape *)
      destruct b as [|e b1].
      { exfalso. apply Hp2. exists []. reflexivity. }
      cbn [app cblk]. replace (92 =? c_bsl) with true by reflexivity.
      assert (E2 : (e =? 34) && two_quotes (b1 ++ triple ++ r) = false).
      { destruct (Z.eqb_spec e 34) as [->|]; [|reflexivity]. cbn [andb].
        destruct (two_quotes (b1 ++ triple ++ r)) eqn:E; [|reflexivity]. exfalso.
        apply two_quotes_body in E as [u Hu]. apply Hp2. exists u. cbn. rewrite Hu. reflexivity. }
      rewrite E2.
      inversion Hbc as [|b2 v2 Hb2 E4 E5|c2 b2 v2 Hc2 Hp3 Hp4 Hb2]; subst.
      * exfalso. apply (proj2 Hs). exists [], (b2 ++ triple ++ r). reflexivity.
      * rewrite (IH b1 v2); [reflexivity|cbn in Hn; lia|exact Hb2|]. apply (block_safe_app [92%Z; e]), Hs.
    + cbn [cblk]. replace (c =? c_bsl) with false by (unfold c_bsl; lia).
      pose proof (Forall_inv (proj1 Hs)) as Hcc. cbn beta in Hcc.
      replace (c =? c_cr) with false by (unfold c_cr; lia). unfold c_tab, c_lf.
      replace ((c <? 32) && negb (c =? 9) && negb (c =? 10)) with false by lia.
      assert (E2 : (c =? 34) && two_quotes (b ++ triple ++ r) = false).
      { destruct (Z.eqb_spec c 34) as [->|]; [|reflexivity]. cbn [andb].
        destruct (two_quotes (b ++ triple ++ r)) eqn:E; [|reflexivity]. exfalso.
        apply two_quotes_body in E as [u Hu]. apply Hp1. exists u. cbn. rewrite Hu. reflexivity. }
      rewrite E2, (IH b v); [reflexivity|lia|exact Hbc|]. apply (block_safe_app [c]), Hs.
Qed.

(** ** BlockStringValue. *)
Definition noCR (v : list Z) : Prop := Forall (fun c => c <> 13%Z) v.

Lemma lines_of_acc v cur : noCR v ->
  lines_of v cur = match lines_of v [] with l :: ls => (rev cur ++ l) :: ls | [] => [] end.
Proof.
  revert cur; induction v as [|c t IH]; intros cur Hv; cbn [lines_of].
  - cbn. rewrite app_nil_r. reflexivity.
  - inversion Hv; subst. destruct (c =? 10); [cbn; rewrite app_nil_r; reflexivity|].
    replace (Z.eqb c 13) with false by lia.
    rewrite (IH (c :: cur)), (IH [c]) by assumption. destruct (lines_of t []); [reflexivity|].
    cbn. rewrite <- app_assoc. reflexivity.
Qed.

Definition scalars (v : list Z) : Prop := Forall scalar v.

Lemma utf8_first c : scalar c -> exists b t, utf8 c = b :: t /\ (c < 128 -> zb b = c /\ t = [])%Z /\ (128 <= c -> Forall (fun b => 128 <= zb b)%Z (b :: t))%Z.
Proof.
  intros Hs. unfold scalar in Hs. unfold utf8.
  assert (R : forall z, (128 <= zb (bz (128 + z mod 64)))%Z).
  { intros z. pose proof (Z.mod_pos_bound z 64 ltac:(lia)). rewrite zb_bz; lia. }
  destruct (Z.ltb_spec c 128).
  { eexists _, _. split; [reflexivity|]. split; [|lia]. intros _. rewrite zb_bz by lia. auto. }
  destruct (Z.ltb_spec c 2048).
  { eexists _, _. split; [reflexivity|]. split; [lia|]. intros _.
    repeat constructor; [rewrite zb_bz by lia; lia|apply R]. }
  destruct (Z.ltb_spec c 65536).
  { eexists _, _. split; [reflexivity|]. split; [lia|]. intros _.
    repeat constructor; [rewrite zb_bz by lia; lia|apply R|apply R]. }
  eexists _, _. split; [reflexivity|]. split; [lia|]. intros _.
  repeat constructor; [rewrite zb_bz by lia; lia|apply R|apply R|apply R].
Qed.

Lemma split_lf_high u rest : Forall (fun b => 128 <= zb b)%Z u ->
  split_lf (u ++ rest) = match split_lf rest with l :: ls => (u ++ l) :: ls | [] => [] end.
Proof.
  induction 1 as [|b u Hb Hu IH]; cbn [app split_lf].
  - destruct (split_lf rest); reflexivity.
  - replace (zb b =? 10) with false by lia. rewrite IH. destruct (split_lf rest) eqn:E; [|reflexivity].
    exfalso. destruct rest as [|b' t]; cbn in E; [discriminate|]. destruct (zb b' =? 10); [discriminate|].
    destruct (split_lf t); discriminate.
Qed.

Lemma split_lf_cons b rest : (zb b =? 10) = false ->
  split_lf (b :: rest) = match split_lf rest with l :: ls => (b :: l) :: ls | [] => [] end.
Proof.
  intros Hb. cbn [split_lf]. rewrite Hb. destruct (split_lf rest) eqn:E; [|reflexivity].
  exfalso. destruct rest as [|b' t]; cbn in E; [discriminate|]. destruct (zb b' =? 10); [discriminate|].
  destruct (split_lf t); discriminate.
Qed.

Lemma split_lf_text v : scalars v -> noCR v -> split_lf (utf8s v) = map utf8s (lines_of v []).
Proof.
  intros Hs Hn. induction v as [|c t IH]; [reflexivity|].
  inversion Hs as [|? ? Hc Hs']; subst. inversion Hn as [|? ? Hc2 Hn']; subst.
  cbn [lines_of]. destruct (utf8_first c Hc) as (b & u & Eu & Hlow & Hhigh).
  change (utf8s (c :: t)) with (utf8 c ++ utf8s t). rewrite Eu.
  destruct (Z.eqb_spec c 10) as [->|Hne].
  - destruct (Hlow ltac:(lia)) as [Hb ->]. cbn [app split_lf]. rewrite Hb. cbn [Z.eqb Pos.eqb].
    rewrite IH by assumption. reflexivity.
  - replace (Z.eqb c 13) with false by lia. rewrite lines_of_acc by assumption. 
    destruct (Z.lt_ge_cases c 128) as [Hlt|Hge].
    + destruct (Hlow Hlt) as [Hb ->]. cbn [app]. rewrite split_lf_cons by lia. rewrite IH by assumption.
      destruct (lines_of t []) as [|l ls]; [reflexivity|]. cbn [map rev app].
      change (utf8s (c :: l)) with (utf8 c ++ utf8s l). rewrite Eu. reflexivity.
    + rewrite split_lf_high by (apply Hhigh; lia). rewrite IH by assumption.
      destruct (lines_of t []) as [|l ls]; [reflexivity|]. cbn [map rev app].
      change (utf8s (c :: l)) with (utf8 c ++ utf8s l). rewrite Eu. reflexivity.
Qed.

Lemma lines_of_scalars v cur : scalars v -> scalars cur -> Forall scalars (lines_of v cur).
Proof.
  intros Hv. revert v cur Hv.
  assert (H : forall n v cur, (List.length v <= n)%nat -> scalars v -> scalars cur -> Forall scalars (lines_of v cur)).
  2:{ intros v cur Hv Hc. apply (H (List.length v)); auto. }
  induction n as [|n IH]; intros [|c t] cur Hn Hv Hc; cbn [lines_of].
  - repeat constructor. apply Forall_rev, Hc.
  - cbn in Hn. lia.
  - repeat constructor. apply Forall_rev, Hc.
  - inversion Hv; subst. cbn [List.length] in Hn. destruct (Z.eqb c 10).
    { constructor; [apply Forall_rev, Hc|]. apply IH; [lia|assumption|constructor]. }
    destruct (Z.eqb c 13); [|apply IH; [lia|assumption|constructor; assumption]].
    destruct t as [|d t]; [constructor; [apply Forall_rev, Hc|apply IH; [cbn; lia|constructor|constructor]]|].
    inversion H2; subst. cbn [List.length] in Hn.
    destruct (Z.eqb d 10); constructor; try (apply Forall_rev, Hc).
    + apply IH; [lia|assumption|constructor].
    + apply IH; [cbn; lia|assumption|constructor].
Qed.

Lemma leading_text l : scalars l -> leadingWhitespace (utf8s l) = if blank l then None else Some (indent_of l).
Proof.
  induction 1 as [|c l Hc Hl IH]; [reflexivity|].
  destruct (utf8_first c Hc) as (b & u & Eu & Hlow & Hhigh).
  change (utf8s (c :: l)) with (utf8 c ++ utf8s l). rewrite Eu. cbn [app leadingWhitespace blank forallb indent_of].
  destruct (Z.lt_ge_cases c 128) as [Hlt|Hge].
  - destruct (Hlow Hlt) as [-> ->]. cbn [app].
    change ((c =? 32) || (c =? 9)) with (white c).
    destruct (white c); cbn [andb].
    + rewrite IH. unfold blank. destruct (forallb white l); reflexivity.
    + reflexivity.
  - apply Hhigh in Hge as Hge'. inversion Hge'; subst.
    replace ((zb b =? 32) || (zb b =? 9)) with false by lia.
    replace (white c) with false by (unfold white; lia). reflexivity.
Qed.

Lemma indent_blank l : blank l = true -> indent_of l = List.length l.
Proof.
  induction l as [|c l IH]; [reflexivity|]. unfold blank in *. cbn [forallb indent_of List.length]. intros H.
  apply andb_prop in H as [-> H]. f_equal. apply IH, H.
Qed.

Lemma indent_notblank l : blank l = false -> (indent_of l < List.length l)%nat.
Proof.
  induction l as [|c l IH]; [discriminate|]. unfold blank in *. cbn [forallb indent_of List.length].
  destruct (white c); cbn [andb]; [|lia]. intros H. specialize (IH H). lia.
Qed.

Definition omin (a b : option nat) : option nat :=
  match a, b with Some x, Some y => Some (Nat.min x y) | Some x, None => Some x | None, y => y end.

Lemma indent_lt_text l : scalars l -> (indent_of l <= List.length l <= List.length (utf8s l))%nat.
Proof.
  intros _. split.
  - induction l as [|c l IH]; [cbn; lia|]. cbn [indent_of List.length]. destruct (white c); lia.
  - induction l as [|c l IH]; [cbn; lia|]. change (utf8s (c :: l)) with (utf8 c ++ utf8s l).
    rewrite app_length. cbn [List.length]. pose proof (utf8_length c). lia.
Qed.

Ltac oinj E := apply (f_equal (fun o => match o with Some x => x | None => 0%nat end)) in E; cbv beta iota in E.

Lemma commonIndent_loop_text ls ci : Forall scalars ls ->
  commonIndent_loop (map utf8s ls) ci = omin ci (common_indent ls)
  \/ (commonIndent_loop (map utf8s ls) ci = Some O /\ omin ci (common_indent ls) = Some O).
Proof.
  intros H; revert ci; induction H as [|l ls Hl Hls IH]; intros ci; cbn [map commonIndent_loop common_indent].
  - left. destruct ci; reflexivity.
  - rewrite leading_text by exact Hl. destruct (blank l) eqn:Eb.
    + rewrite indent_blank by exact Eb. rewrite Nat.ltb_irrefl. apply IH.
    + apply indent_notblank in Eb. pose proof (indent_lt_text l Hl).
      destruct (Nat.ltb_spec (indent_of l) (List.length (utf8s l))); [|lia].
      destruct (Nat.ltb_spec (indent_of l) (List.length l)); [|lia]. cbn [andb].
      destruct ci as [c|].
      * destruct (Nat.ltb_spec (indent_of l) c).
        -- destruct (indent_of l) as [|k] eqn:Ei.
           ++ right. split; [reflexivity|]. destruct (common_indent ls); cbn; f_equal; lia.
           ++ destruct (IH (Some (S k))) as [->|[-> E]].
              ** left. destruct (common_indent ls); cbn [omin]; f_equal; lia.
              ** right. split; [reflexivity|]. destruct (common_indent ls); cbn [omin] in *; oinj E; f_equal; lia.
        -- destruct (IH (Some c)) as [->|[-> E]].
           ++ left. destruct (common_indent ls); cbn [omin]; f_equal; lia.
           ++ right. split; [reflexivity|]. destruct (common_indent ls); cbn [omin] in *; oinj E; f_equal; lia.
      * destruct (indent_of l) as [|k] eqn:Ei.
        -- right. split; [reflexivity|]. destruct (common_indent ls); cbn; f_equal; lia.
        -- destruct (IH (Some (S k))) as [->|[-> E]].
           ++ left. destruct (common_indent ls); cbn [omin]; f_equal; lia.
           ++ right. split; [reflexivity|]. destruct (common_indent ls); cbn [omin] in *; oinj E; f_equal; lia.
Qed.

Lemma common_indent_le n ls l : common_indent ls = Some n -> In l ls -> blank l = false -> (n <= indent_of l)%nat.
Proof.
  revert n; induction ls as [|l0 ls IH]; intros n Hn Hin Hb; [destruct Hin|]. cbn [common_indent] in Hn.
  destruct (Nat.ltb_spec (indent_of l0) (List.length l0)).
  - destruct Hin as [->|Hin].
    + destruct (common_indent ls); injection Hn as <-; lia.
    + destruct (common_indent ls) as [m|] eqn:E.
      * injection Hn as <-. specialize (IH m eq_refl Hin Hb). lia.
      * exfalso. clear - E Hin Hb. induction ls as [|l1 ls IH]; [destruct Hin|]. cbn [common_indent] in E.
        destruct (Nat.ltb_spec (indent_of l1) (List.length l1)).
        -- destruct (common_indent ls); discriminate.
        -- destruct Hin as [->|Hin]; [apply indent_notblank in Hb; lia|]. apply IH; assumption.
  - destruct Hin as [->|Hin]; [apply indent_notblank in Hb; lia|]. apply IH; assumption.
Qed.

Lemma white_utf8 c : white c = true -> utf8 c = [bz c].
Proof. unfold white. intros H. apply utf8_1. lia. Qed.

Lemma skip_indent n l : (n <= indent_of l)%nat -> skipn n (utf8s l) = utf8s (skipn n l).
Proof.
  revert l; induction n as [|n IH]; intros l H; [reflexivity|]. destruct l as [|c l]; [reflexivity|].
  cbn [indent_of] in H. destruct (white c) eqn:E; [|lia].
  change (utf8s (c :: l)) with (utf8 c ++ utf8s l). rewrite white_utf8 by exact E. cbn [app skipn]. apply IH. lia.
Qed.

Lemma blank_length l : blank l = true -> List.length (utf8s l) = List.length l.
Proof.
  induction l as [|c l IH]; [reflexivity|]. unfold blank in *. cbn [forallb]. intros H. apply andb_prop in H as [H1 H2].
  change (utf8s (c :: l)) with (utf8 c ++ utf8s l). rewrite white_utf8 by exact H1. cbn. f_equal. apply IH, H2.
Qed.

Lemma dedent_line n l : scalars l -> (blank l = true \/ (n <= indent_of l)%nat) ->
  (if Nat.ltb (List.length (utf8s l)) n then [] else skipn n (utf8s l)) = utf8s (skipn n l).
Proof.
  intros Hs [Hb|Hn].
  - destruct (Nat.ltb_spec (List.length (utf8s l)) n) as [H|H].
    + rewrite blank_length in H by exact Hb. rewrite skipn_all2 by lia. reflexivity.
    + apply skip_indent. rewrite indent_blank by exact Hb. rewrite blank_length in H by exact Hb. exact H.
  - pose proof (indent_lt_text l Hs). destruct (Nat.ltb_spec (List.length (utf8s l)) n); [lia|].
    apply skip_indent, Hn.
Qed.

Lemma drop_blank_text ls : Forall scalars ls -> drop_blank (map utf8s ls) = map utf8s (drop_blank_lines ls).
Proof.
  induction 1 as [|l ls Hl Hls IH]; [reflexivity|]. cbn [map drop_blank drop_blank_lines].
  rewrite leading_text by exact Hl. destruct (blank l); [apply IH|reflexivity].
Qed.

Lemma drop_blank_Forall (P : list Z -> Prop) ls : Forall P ls -> Forall P (drop_blank_lines ls).
Proof. induction 1 as [|l ls Hl Hls IH]; cbn; [constructor|]. destruct (blank l); [exact IH|constructor; assumption]. Qed.

Lemma join_text ls : joinb (B (String (ascii_of_N 10) "")) (map utf8s ls) = utf8s (join_lf ls).
Proof.
  induction ls as [|l ls IH]; [reflexivity|]. destruct ls as [|l2 ls]; [reflexivity|].
  cbn [map joinb join_lf] in *. rewrite IH. unfold utf8s. rewrite flat_map_app. reflexivity.
Qed.

Lemma Forall_skipn {A} (P : A -> Prop) n l : Forall P l -> Forall P (skipn n l).
Proof. revert l; induction n as [|n IH]; intros l H; [exact H|]. destruct H; [constructor|]. cbn. apply IH. assumption. Qed.

Lemma blockStringValue_spec raw : scalars raw -> noCR raw ->
  blockStringValue (utf8s raw) = utf8s (block_string_value raw).
Proof.
  intros Hs Hn. unfold blockStringValue, block_string_value. rewrite split_lf_text by assumption.
  pose proof (lines_of_scalars raw [] Hs (Forall_nil _)) as Hls.
  assert (Hd : exists ls', Forall scalars ls' /\
    dedent (commonIndent (map utf8s (lines_of raw []))) (map utf8s (lines_of raw [])) = map utf8s ls' /\
    match lines_of raw [] with
    | first :: rest => match common_indent rest with Some n => first :: map (skipn n) rest | None => lines_of raw [] end
    | [] => [] end = ls').
  { destruct (lines_of raw []) as [|first rest]; [exists []; repeat split; constructor|].
    inversion Hls as [|? ? Hf Hr]; subst. cbn [map].
    destruct rest as [|l2 rest].
    - exists [first]. split; [exact Hls|split; [|reflexivity]].
      cbn [map commonIndent dedent]. destruct (commonIndent_loop [utf8s first] None); reflexivity.
    - set (rs := l2 :: rest) in *.
      assert (E : commonIndent (utf8s first :: map utf8s rs) = common_indent rs).
      { unfold commonIndent. unfold rs at 1. cbn [map]. change (utf8s l2 :: map utf8s rest) with (map utf8s rs). cbn [tl].
        destruct (commonIndent_loop_text rs None Hr) as [->|[-> E]]; [reflexivity|]. rewrite <- E. reflexivity. }
      rewrite E. destruct (common_indent rs) as [n|] eqn:Ec.
      + exists (first :: map (skipn n) rs). repeat split.
        * constructor; [exact Hf|]. apply Forall_map. eapply Forall_impl; [|exact Hr]. intros l. apply Forall_skipn.
        * cbn [dedent map]. f_equal. rewrite !map_map. apply map_ext_in. intros l Hin.
          apply dedent_line; [rewrite Forall_forall in Hr; apply Hr, Hin|].
          destruct (blank l) eqn:Eb; [left; reflexivity|right]. eapply common_indent_le; eassumption.
      + exists (first :: rs). split; [exact Hls|split; reflexivity]. }
  destruct Hd as (ls' & Hls' & -> & ->).
  unfold trim_blank. rewrite drop_blank_text by exact Hls'. rewrite <- map_rev.
  rewrite drop_blank_text by (apply Forall_rev, drop_blank_Forall, Hls').
  rewrite <- map_rev. apply join_text.
Qed.
