(** * LexProps: the lexical properties derived from [LexMain.lex_main]. *)
From Verif Require Import Base Utf8 Utf8Proofs Lexer LexerTotal LexCP LexRefine LexSpec LexAgree LexMain.
From Coq Require Import ZifyBool ZifyNat ZifyN.
Local Open Scope lex_scope.

(** Kind and literal of a token; the text of an Illegal token is an error message, not a literal. *)
Definition shape (t : token) : kind * bytes := (tkind t, match tkind t with KIllegal => [] | _ => tlit t end).
Definition sshape (k : stok) : kind * bytes := (skind k, slit k).
Definition end_shape (rest : list Z) : kind * bytes := match rest with [] => (KEOF, []) | _ => (KIllegal, []) end.

Lemma lexeme_kind k w lit stop : lexeme k w lit stop -> k <> KIllegal /\ k <> KEOF.
Proof. destruct 1; split; discriminate. Qed.

Lemma lexing_kinds pre cs ts rest : lexing pre cs ts rest -> Forall (fun k => skind k <> KIllegal /\ skind k <> KEOF) ts.
Proof. induction 1; auto. constructor; [eapply lexeme_kind; eauto|assumption]. Qed.

(** Every tokenisation the grammar allows is the one the lexer produces. *)
Theorem lex_complete cs toks rest : clean cs -> regular_blocks cs -> lexing [] cs toks rest -> rest = [] \/ stuck rest ->
  exists ts s', lex_all (utf8s cs) = Ok ts s' /\ map shape ts = map sshape toks ++ [end_shape rest].
Proof.
  intros Hc Hr H F. destruct (lex_main cs Hc Hr) as (ts & last & s' & toks' & body & rest' & H1 & H2 & H3 & H4 & H5 & _).
  exists (ts ++ [last]), s'. split; [exact H1|].
  assert (F' : final rest') by (destruct H5 as [(_ & _ & ->)|(_ & Hs)]; [left; reflexivity|right; exact Hs]).
  destruct (lexing_unique _ _ _ _ H2 F' Hc Hr _ _ H F) as [<- <-].
  rewrite map_app. f_equal.
  - pose proof (lexing_kinds _ _ _ _ H2) as Hk. clear - H4 Hk.
    induction H4 as [|t k ts toks [E1 E2] H4 IH]; [reflexivity|]. inversion Hk; subst. cbn [map]. f_equal; auto.
    unfold shape, sshape. rewrite E1, E2. destruct H1. destruct (skind k); try reflexivity; congruence.
  - cbn [map]. f_equal. unfold shape, end_shape. destruct H5 as [(-> & -> & ->)|(-> & Hs)]; [reflexivity|].
    destruct rest'; [destruct Hs as [Hs _]; congruence|reflexivity].
Qed.

(** ** Independence of the text before. *)
Definition core (k : stok) : kind * bytes * list Z := (skind k, slit k, ssrc k).

Lemma lexing_pre pre cs ts rest : lexing pre cs ts rest ->
  forall pre', exists ts', lexing pre' cs ts' rest /\ map core ts' = map core ts.
Proof.
  induction 1 as [pre cs|pre c t ts rest Hi H IH|pre b t ts rest Hb Hle H IH|pre k w lit stop t ts rest Hlex He H IH]; intros pre'.
  - exists []. split; [constructor|reflexivity].
  - destruct (IH (pre' ++ [c])) as (ts' & H1 & H2). exists ts'. split; [apply lg_ignored; auto|exact H2].
  - destruct (IH (pre' ++ 35%Z :: b)) as (ts' & H1 & H2). exists ts'. split; [apply lg_comment; auto|exact H2].
  - destruct (IH (pre' ++ w)) as (ts' & H1 & H2). exists (mkStok k lit pre' w :: ts'). split.
    + eapply lg_token; eauto.
    + cbn [map]. f_equal. exact H2.
Qed.

Lemma core_shape ts ts' : map core ts = map core ts' -> map sshape ts = map sshape ts'.
Proof.
  revert ts'; induction ts as [|a ts IH]; intros [|b ts'] H; try discriminate; [reflexivity|].
  cbn [map] in *. unfold core in H at 1 3. injection H as A1 A2 A3 H. f_equal; [|apply IH, H].
  unfold sshape. congruence.
Qed.

Lemma lexing_app pre u mid ts1 : forall cs, lexing pre cs ts1 mid -> cs = u ++ mid -> forall ts2 rest,
  lexing (pre ++ u) mid ts2 rest -> lexing pre cs (ts1 ++ ts2) rest.
Proof.
  intros cs H. revert u. induction H as [pre cs|pre c t ts rest Hi H IH|pre b t ts rest Hb Hle H IH|pre k w lit stop t ts rest Hlex He H IH];
    intros u E ts2 rest2 H2.
  - assert (u = []) as ->.
    { apply (f_equal (@List.length Z)) in E. rewrite app_length in E. destruct u; [reflexivity|cbn in E; lia]. }
    rewrite app_nil_r in H2. exact H2.
  - apply lg_ignored; [exact Hi|].
    destruct (lexing_before _ _ _ _ H) as (body & Eb & _). assert (u = c :: body) as ->.
    { apply (app_inv_tail rest). rewrite <- E, Eb. reflexivity. }
    apply (IH body); [exact Eb|]. rewrite <- app_assoc. exact H2.
  - apply lg_comment; [exact Hb|exact Hle|].
    destruct (lexing_before _ _ _ _ H) as (body & Eb & _). assert (u = 35%Z :: b ++ body) as ->.
    { apply (app_inv_tail rest). rewrite <- E, Eb. cbn. rewrite <- app_assoc. reflexivity. }
    apply (IH body); [exact Eb|]. rewrite <- app_assoc. exact H2.
  - cbn [app]. eapply lg_token; [exact Hlex|exact He|].
    destruct (lexing_before _ _ _ _ H) as (body & Eb & _). assert (u = w ++ body) as ->.
    { apply (app_inv_tail rest). rewrite <- E, Eb, app_assoc. reflexivity. }
    apply (IH body); [exact Eb|]. rewrite <- app_assoc. exact H2.
Qed.

(** ** The first token, and how scanning resumes after it. *)
Theorem first_token k w lit stop r : lexeme k w lit stop -> ends stop r -> clean (w ++ r) -> regular_blocks (w ++ r) ->
  exists t ts s' ts' s'', lex_all (utf8s (w ++ r)) = Ok (t :: ts) s' /\ tkind t = k /\ tlit t = lit /\
    lex_all (utf8s r) = Ok ts' s'' /\ map shape ts = map shape ts'.
Proof.
  intros Hl He Hc Hr.
  assert (Hc' : clean r) by apply (clean_app_r _ _ Hc). assert (Hr' : regular_blocks r) by apply (regular_app _ _ Hr).
  destruct (lex_main r Hc' Hr') as (ts1 & last & s1 & toks & body & rest & H1 & H2 & H3 & H4 & H5 & _).
  assert (F : rest = [] \/ stuck rest) by (destruct H5 as [(_ & _ & ->)|(_ & Hs)]; [left; reflexivity|right; exact Hs]).
  destruct (lexing_pre _ _ _ _ H2 w) as (toks' & H2' & Hcore).
  assert (Hw : lexing [] (w ++ r) (mkStok k lit [] w :: toks') rest) by (eapply lg_token; eauto).
  destruct (lex_complete _ _ _ Hc Hr Hw F) as (ts & s' & E1 & E2).
  destruct (lex_complete _ _ _ Hc' Hr' H2 F) as (tsr & sr & R1 & R2).
  destruct ts as [|t ts]; [discriminate|]. cbn [map app] in E2.
  assert (Es : shape t = (k, lit) /\ map shape ts = map sshape toks' ++ [end_shape rest]).
  { split; [exact (f_equal (hd (KEOF, [])) E2)|exact (f_equal (@tl _) E2)]. }
  destruct Es as [Es Et]. exists t, ts, s', tsr, sr. split; [exact E1|].
  destruct (lexeme_kind _ _ _ _ Hl) as [K1 K2]. unfold shape in Es.
  assert (tkind t = k) as Ek by (remember lit as lit0; injection Es; auto).
  split; [exact Ek|]. split.
  - rewrite Ek in Es. destruct k; try congruence; remember lit as lit0; injection Es; auto.
  - split; [exact R1|]. rewrite Et, R2. f_equal. apply core_shape, Hcore.
Qed.

(** ** Sources that give an Illegal first token. *)
Lemma ctoken_ill_lex cs : clean cs -> significant cs ->
  (forall ln lp, exists l c, ctoken cs ln lp = CIll l c) ->
  exists t s', lex_all (utf8s cs) = Ok [t] s' /\ tkind t = KIllegal.
Proof.
  intros Hc Hs Hi. destruct (lex_all_total (utf8s cs)) as (ts & last & s' & Hl & Hlast & Hts & _).
  pose proof (lex_all_clex cs _ s' Hc Hl) as E. unfold fuel_of in E. cbn [clex] in E. unfold cscan in E.
  assert (Esk : skip cs (Norm false) 1 0 = (cs, 1%nat, 0%nat)).
  { destruct cs as [|c t]; [reflexivity|]. cbn [skip]. destruct Hs as [Hs1 Hs2].
    destruct ((c =? c_cr) || (c =? c_lf) || ignorable c) eqn:Ei; [exfalso; apply Hs1, ignored_b, Ei|].
    apply orb_false_iff in Ei as [Ei Ei3]. apply orb_false_iff in Ei as [Ei1 Ei2].
    rewrite Ei1, Ei2, Ei3. replace (c =? 35) with false by lia. reflexivity. }
  rewrite Esk in E. destruct (Hi 1%nat 0%nat) as (l & c & Ec). rewrite Ec in E.
  rewrite map_app in E. destruct ts as [|t ts]; [|destruct ts; discriminate].
  cbn [map app] in E. exists last, s'. split; [exact Hl|]. unfold strip in E. injection E as -> _ _ _. reflexivity.
Qed.

Lemma cstr_prefix b v r : string_chars b v -> cstr r = None -> cstr (b ++ r) = None.
Proof.
  intros H Hr. induction H as [|c b v Hc Hq Hb H IH|e x b v He H IH|h1 h2 h3 h4 x1 x2 x3 x4 b v A1 A2 A3 A4 H IH].
  - exact Hr.
  - cbn [app cstr]. destruct (c =? 34) eqn:E1; [lia|]. destruct ((c <? 32) && negb (c =? c_tab)) eqn:E2; [reflexivity|].
    unfold c_bsl. destruct (c =? 92) eqn:E3; [lia|]. rewrite IH. reflexivity.
  - cbn [app cstr]. change (92 =? 34) with false. change ((92 <? 32) && negb (92 =? c_tab)) with false.
    change (92 =? c_bsl) with true. cbn beta iota.
    unfold escape in He. cbn in He.
    repeat (destruct He as [He|He]; [injection He as <- <-; cbn -[cstr]; rewrite IH; reflexivity|]). destruct He.
  - cbn [app cstr]. change (92 =? 34) with false. change ((92 <? 32) && negb (92 =? c_tab)) with false.
    change (92 =? c_bsl) with true. change (117 =? 117) with true. cbn beta iota.
    destruct (unicodeCodePointToRune h1 h2 h3 h4 <? 0)%Z; [reflexivity|]. rewrite IH. reflexivity.
Qed.

Definition bad_string_tail (r : list Z) : Prop :=
  r = [] \/                                                          (* no closing quote *)
  (exists c t, r = c :: t /\ (c < 32)%Z /\ c <> 9%Z) \/                  (* a control character, including line ends *)
  (exists e t, r = 92%Z :: e :: t /\ e <> 117%Z /\ ~ exists x, escape e x) \/   (* an unknown escape *)
  (exists h1 h2 h3 h4 t, r = 92%Z :: 117%Z :: h1 :: h2 :: h3 :: h4 :: t /\
      (~ (exists x, hexdigit h1 x) \/ ~ (exists x, hexdigit h2 x) \/ ~ (exists x, hexdigit h3 x) \/ ~ (exists x, hexdigit h4 x))).

Lemma c_escape_none e : ~ (exists x, escape e x) -> c_escape e = None.
Proof.
  intros H. destruct (c_escape e) as [x|] eqn:E; [|reflexivity]. exfalso. apply H. exists x.
  unfold c_escape, c_dq, c_fsl, c_bsl, c_bck, c_ff, c_lf, c_cr, c_tab in E. unfold escape. cbn.
  repeat match type of E with
  | (if ?b then _ else _) = _ => let Q := fresh in destruct b eqn:Q; [apply Z.eqb_eq in Q; injection E as <-; subst e; tauto|]
  end. discriminate.
Qed.

Lemma ctoken_string t ln lp : two_quotes t = false -> cstr t = None -> exists l c, ctoken (34%Z :: t) ln lp = CIll l c.
Proof.
  intros E1 E2. cbn [ctoken]. change (is_name_start 34) with false. change (is_punct 34) with false.
  change (is_digit 34 || (34 =? 45)) with false. change (34 =? 34) with true. cbn beta iota. rewrite E1, E2. eauto.
Qed.

Theorem bad_string b v r : string_chars b v -> bad_string_tail r -> clean (34%Z :: b ++ r) ->
  exists t s', lex_all (utf8s (34%Z :: b ++ r)) = Ok [t] s' /\ tkind t = KIllegal.
Proof.
  intros Hb Hr Hc. apply ctoken_ill_lex; [exact Hc|unfold significant, ignored_char; lia|].
  assert (Hn : cstr r = None).
  { destruct Hr as [->|[(c & t & -> & H1 & H2)|[(e & t & -> & H1 & H2)|(h1 & h2 & h3 & h4 & t & -> & H)]]].
    - reflexivity.
    - cbn [cstr]. destruct (c =? 34) eqn:E1; [lia|]. unfold c_tab. replace ((c <? 32) && negb (c =? 9)) with true by lia. reflexivity.
    - cbn [cstr]. change (92 =? 34) with false. change ((92 <? 32) && negb (92 =? c_tab)) with false.
      change (92 =? c_bsl) with true. cbn beta iota. replace (e =? 117) with false by lia. rewrite c_escape_none by exact H2. reflexivity.
    - cbn [cstr]. change (92 =? 34) with false. change ((92 <? 32) && negb (92 =? c_tab)) with false.
      change (92 =? c_bsl) with true. change (117 =? 117) with true. cbn beta iota.
      destruct (unicodeCodePointToRune h1 h2 h3 h4 <? 0)%Z eqn:E; [reflexivity|]. exfalso.
      destruct (unicode_sound h1 h2 h3 h4) as (x1 & x2 & x3 & x4 & A1 & A2 & A3 & A4 & _); [lia|].
      destruct H as [H|[H|[H|H]]]; apply H; eauto. }
  intros ln lp. apply ctoken_string; [|apply (cstr_prefix b v), Hn; exact Hb].
  destruct (two_quotes (b ++ r)) eqn:E; [|reflexivity]. exfalso. apply two_quotes_spec in E as [u Hu].
  destruct Hb as [|c b v Hc1 Hq Hbs Hb|e x b v Hes Hb|]; cbn in Hu.
  - subst r. destruct Hr as [Hr|[(c & t & E & H1 & H2)|[(e & t & E & _)|(h1 & h2 & h3 & h4 & t & E & _)]]]; try discriminate.
  - injection Hu as -> _. congruence.
  - discriminate.
  - discriminate.
Qed.

(** Numbers that are not in the grammar. *)
Definition no_digit_next (r : list Z) : Prop := match r with c :: _ => ~ digit c | [] => True end.

Inductive bad_number : list Z -> Prop :=
| bn_sign r : no_digit_next r -> bad_number (45%Z :: r)                                  (* "-" without digits *)
| bn_zero sg d r : sg = [] \/ sg = [45%Z] -> digit d -> bad_number (sg ++ 48%Z :: d :: r)   (* leading zero *)
| bn_frac w r : integer_part w -> no_digit_next r -> bad_number (w ++ 46%Z :: r)          (* "." without digits *)
| bn_exp w x sg r : integer_part w -> exp_mark x -> sg = [] \/ sg = [43%Z] \/ sg = [45%Z] -> no_digit_next r ->
    (sg = [] -> match r with c :: _ => c <> 43%Z /\ c <> 45%Z | [] => True end) ->
    bad_number (w ++ x :: sg ++ r)                                                        (* exponent without digits *)
| bn_frac_exp w f x sg r : integer_part w -> fractional_part f -> exp_mark x -> sg = [] \/ sg = [43%Z] \/ sg = [45%Z] ->
    no_digit_next r -> (sg = [] -> match r with c :: _ => c <> 43%Z /\ c <> 45%Z | [] => True end) ->
    bad_number (w ++ f ++ x :: sg ++ r).

Lemma cdigits_none r : no_digit_next r -> cdigits r = None.
Proof.
  unfold cdigits. destruct r as [|c r]; [reflexivity|]. cbn [no_digit_next span]. intros H.
  destruct (is_digit c) eqn:E; [|reflexivity]. exfalso. apply H, is_digit_spec, E.
Qed.

Lemma c_exppart_none x sg r : exp_mark x -> sg = [] \/ sg = [43%Z] \/ sg = [45%Z] -> no_digit_next r ->
  (sg = [] -> match r with c :: _ => c <> 43%Z /\ c <> 45%Z | [] => True end) -> c_exppart (x :: sg ++ r) = None.
Proof.
  intros Hx Hsg Hr Hs. unfold c_exppart. unfold exp_mark in Hx. replace ((x =? 101) || (x =? 69)) with true by lia.
  assert (E : c_expsign (sg ++ r) = (sg, r)).
  { destruct Hsg as [->|[->| ->]]; [|reflexivity|reflexivity]. specialize (Hs eq_refl). cbn [app c_expsign].
    destruct r as [|c r]; [reflexivity|]. cbn [c_expsign]. replace ((c =? 43) || (c =? 45)) with false by lia. reflexivity. }
  rewrite E, cdigits_none by exact Hr. reflexivity.
Qed.

Theorem bad_number_illegal cs : bad_number cs -> clean cs ->
  exists t s', lex_all (utf8s cs) = Ok [t] s' /\ tkind t = KIllegal.
Proof.
  intros Hb Hc.
  assert (Hh : exists c t, cs = c :: t /\ (digit c \/ c = 45%Z)).
  { destruct Hb as [r H|sg d r [->| ->] Hd|w r Hw _|w x sg r Hw _ _ _ _|w f x sg r Hw _ _ _ _ _].
    - eauto.
    - eexists _, _. split; [reflexivity|]. unfold digit. lia.
    - eexists _, _. split; [reflexivity|]. auto.
    - destruct (integer_head _ Hw) as (c & t & -> & H'). eexists _, _. split; [reflexivity|exact H'].
    - destruct (integer_head _ Hw) as (c & t & -> & H'). eexists _, _. split; [reflexivity|exact H'].
    - destruct (integer_head _ Hw) as (c & t & -> & H'). eexists _, _. split; [reflexivity|exact H']. }
  assert (Hn : cnum cs = None).
  { destruct Hb as [r H|sg d r Hsg Hd|w r Hw Hr|w x sg r Hw Hx Hsg Hr Hs|w f x sg r Hw Hf Hx Hsg Hr Hs].
    - unfold cnum. cbn [c_sign]. change (45 =? 45) with true. cbn beta iota. destruct r as [|c r]; [reflexivity|].
      cbn [c_intpart]. cbn in H. unfold digit in H. replace (c =? 48) with false by lia.
      rewrite cdigits_none by (cbn; unfold digit; lia). reflexivity.
    - unfold cnum. assert (E : c_sign (sg ++ 48%Z :: d :: r) = (sg, 48%Z :: d :: r)) by (destruct Hsg as [->| ->]; reflexivity).
      rewrite E. cbn [c_intpart]. change (48 =? 48) with true. cbn beta iota. rewrite (proj2 (is_digit_spec d) Hd). reflexivity.
    - destruct (integer_sign w (46%Z :: r) Hw) as (sg & ip & -> & Hip & E). unfold cnum. rewrite E.
      rewrite c_intpart_complete; [|exact Hip|cbn; unfold digit; lia]. cbn [c_fracpart]. change (46 =? 46) with true. cbn beta iota.
      rewrite cdigits_none by exact Hr. reflexivity.
    - destruct (integer_sign w (x :: sg ++ r) Hw) as (sg0 & ip & -> & Hip & E). unfold cnum. rewrite E.
      unfold exp_mark in Hx. rewrite c_intpart_complete; [|exact Hip|cbn; unfold digit; lia].
      cbn [c_fracpart]. replace (x =? 46) with false by lia. rewrite c_exppart_none; auto.
    - destruct (integer_sign w (f ++ x :: sg ++ r) Hw) as (sg0 & ip & -> & Hip & E). unfold cnum. rewrite E.
      destruct Hf as (ds & -> & Hne & Hds). unfold exp_mark in Hx.
      rewrite c_intpart_complete; [|exact Hip|cbn; unfold digit; lia]. cbn [c_fracpart app]. change (46 =? 46) with true. cbn beta iota.
      rewrite cdigits_complete; [|exact Hne|exact Hds|cbn; unfold digit; lia]. rewrite c_exppart_none; auto. }
  destruct Hh as (c & t & -> & Hh). apply ctoken_ill_lex; [exact Hc|unfold significant, ignored_char, digit in *; lia|].
  intros ln lp. cbn [ctoken].
  destruct (is_name_start c) eqn:E1; [apply is_name_start_spec in E1; unfold letter, digit in *; lia|].
  destruct (is_punct c) eqn:E2; [exfalso; apply is_punct_spec in E2; unfold punctuator, digit in *; cbn in E2; lia|].
  replace (is_digit c || (c =? 45)) with true.
  2:{ symmetry. destruct Hh as [Hh| ->]; [rewrite (proj2 (is_digit_spec c) Hh); reflexivity|reflexivity]. }
  rewrite Hn. eauto.
Qed.

(** ** Ignored text between tokens. *)
Inductive ignored_text : list Z -> Prop :=
| it_nil : ignored_text []
| it_char c g : ignored_char c -> ignored_text g -> ignored_text (c :: g)
| it_comment b c g : Forall (fun x => ~ line_terminator x) b -> line_terminator c -> ignored_text g ->
    ignored_text (35%Z :: b ++ c :: g).

Lemma ignored_lexing g : ignored_text g -> forall pre r ts rest, lexing (pre ++ g) r ts rest -> lexing pre (g ++ r) ts rest.
Proof.
  induction 1 as [|c g Hc Hg IH|b c g Hb Hc Hg IH]; intros pre r ts rest H.
  - rewrite app_nil_r in H. exact H.
  - cbn [app]. apply lg_ignored; [exact Hc|]. apply IH. rewrite <- app_assoc. exact H.
  - cbn [app]. rewrite <- app_assoc. apply lg_comment; [exact Hb|exact Hc|]. cbn [app].
    apply lg_ignored; [unfold line_terminator, ignored_char in *; lia|]. apply IH. rewrite <- !app_assoc. cbn [app]. rewrite <- app_assoc in H || idtac. exact H.
Qed.

Lemma lexeme_stop k w lit stop c : lexeme k w lit stop -> ignored_char c \/ c = 35%Z -> ~ stop c.
Proof.
  intros H Hc Hs. destruct H; unfold nothing, name_char, letter, digit, exp_mark, ignored_char in *; lia.
Qed.

Lemma ends_ignored k w lit stop g r : lexeme k w lit stop -> ignored_text g -> ends stop r -> ends stop (g ++ r).
Proof.
  intros Hl Hg He. destruct Hg; cbn [app ends]; [exact He| |]; eapply lexeme_stop; eauto.
Qed.

Lemma lexing_len pre cs ts rest : lexing pre cs ts rest -> (List.length rest + List.length ts <= List.length cs)%nat.
Proof.
  induction 1; cbn [List.length]; rewrite ?app_length in *; try lia.
  apply lexeme_nonempty in H. destruct w; [congruence|cbn; lia].
Qed.

(** the boundary at which text is inserted is the end of a token *)
Lemma insert_after pre cs ts b : lexing pre cs ts b -> forall k, List.last ts k = k -> ts <> [] -> sbefore k ++ ssrc k ++ b = pre ++ cs ->
  forall g, ignored_text g -> exists u, u <> [] /\ cs = u ++ b /\ lexing pre (u ++ g ++ b) ts (g ++ b).
Proof.
  induction 1 as [pre cs|pre c t ts rest Hi H IH|pre b t ts rest Hb Hle H IH|pre k w lit stop t ts rest Hlex He H IH];
    intros k0 Hk Hne E g Hg.
  - congruence.
  - destruct (IH k0 Hk Hne) with (g := g) as (u & Hu & -> & Hx); [rewrite E, <- app_assoc; reflexivity|exact Hg|].
    exists (c :: u). split; [discriminate|]. split; [reflexivity|]. cbn [app]. apply lg_ignored; assumption.
  - destruct (IH k0 Hk Hne) with (g := g) as (u & Hu & -> & Hx); [rewrite E, <- app_assoc; reflexivity|exact Hg|].
    exists (35%Z :: b ++ u). split; [discriminate|]. split; [cbn; rewrite <- app_assoc; reflexivity|].
    cbn [app]. rewrite <- app_assoc. apply lg_comment; [exact Hb| |exact Hx]. destruct u; [congruence|exact Hle].
  - destruct ts as [|k1 ts].
    + cbn in Hk. subst k0. cbn [sbefore ssrc] in E. apply app_inv_head, app_inv_head in E. subst t.
      exists w. split; [eapply lexeme_nonempty, Hlex|]. split; [reflexivity|].
      eapply lg_token; [exact Hlex|eapply ends_ignored; eauto|constructor].
    + destruct (IH k0) with (g := g) as (u & Hu & -> & Hx); [exact Hk|discriminate|rewrite E, <- app_assoc; reflexivity|exact Hg|].
      exists (w ++ u). split; [destruct w, u; try discriminate; congruence|]. split; [rewrite <- app_assoc; reflexivity|].
      rewrite <- app_assoc. eapply lg_token; [exact Hlex| |exact Hx]. destruct u; [congruence|exact He].
Qed.

(** Inserting ignored text [g] right after a token (or at the start) of [a ++ b] leaves the tokens unchanged. *)
Theorem insert_ignored a b ta tb rest g :
  lexing [] (a ++ b) ta b -> (a = [] \/ exists k ta', ta = ta' ++ [k] /\ sbefore k ++ ssrc k = a) ->
  lexing a b tb rest -> rest = [] \/ stuck rest -> ignored_text g ->
  clean (a ++ g ++ b) -> regular_blocks (a ++ b) -> regular_blocks (a ++ g ++ b) ->
  exists ts s ts' s', lex_all (utf8s (a ++ b)) = Ok ts s /\ lex_all (utf8s (a ++ g ++ b)) = Ok ts' s' /\
    map shape ts = map shape ts'.
Proof.
  intros Ha Hbd Hb F Hg Hc Hr Hr'.
  assert (Hc0 : clean (a ++ b)).
  { unfold clean in *. apply Forall_app in Hc as [C1 C2]. apply Forall_app in C2 as [_ C2]. apply Forall_app. auto. }
  destruct (lexing_pre _ _ _ _ Hb (a ++ g)) as (tb' & Hb' & Hcore).
  assert (Hb'' : lexing a (g ++ b) tb' rest) by (apply ignored_lexing; assumption).
  assert (H1 : lexing [] (a ++ b) (ta ++ tb) rest) by (eapply (lexing_app [] a b); [exact Ha|reflexivity|exact Hb]).
  assert (H2 : lexing [] (a ++ g ++ b) (ta ++ tb') rest).
  { destruct Hbd as [->|(k & ta' & -> & E)].
    - cbn [app] in *. destruct (lexing_before _ _ _ _ Ha) as (_ & _ & _).
      assert (ta = []) as ->; [|exact Hb''].
      pose proof (lexing_len _ _ _ _ Ha) as Hlen. destruct ta; [reflexivity|cbn in Hlen; lia].
    - destruct (insert_after _ _ _ _ Ha k) with (g := g) as (u & Hu & Eu & Hx).
      + apply last_last. + destruct ta'; discriminate. + rewrite app_assoc, E. reflexivity. + exact Hg.
      + apply app_inv_tail in Eu. subst u. eapply (lexing_app [] a (g ++ b)); [exact Hx|reflexivity|exact Hb'']. }
  destruct (lex_complete _ _ _ Hc0 Hr H1 F) as (ts & s & E1 & E2).
  destruct (lex_complete _ _ _ Hc Hr' H2 F) as (ts' & s' & E1' & E2').
  exists ts, s, ts', s'. split; [exact E1|]. split; [exact E1'|]. rewrite E2, E2', !map_app. do 2 f_equal.
  symmetry. apply core_shape, Hcore.
Qed.

Lemma regular_prefix a u : regular_blocks (a ++ u) -> regular_blocks a.
Proof.
  assert (Q : forall p, contains p a -> contains p (a ++ u)).
  { intros p (x & y & ->). exists x, (y ++ u). rewrite <- !app_assoc. reflexivity. }
  intros [H|[H1 H2]]; [left|right].
  - intros Hc. apply H, Q, Hc.
  - apply Forall_app in H1 as [H1 _]. split; [exact H1|]. intros Hc. apply H2, Q, Hc.
Qed.

(** The tokens depend on the source texts of the lexemes only. *)
Theorem tokens_by_lexemes cs cs' toks toks' :
  clean cs -> clean cs' -> regular_blocks cs -> regular_blocks cs' ->
  tokens_of cs toks -> tokens_of cs' toks' -> map ssrc toks = map ssrc toks' ->
  exists ts s ts' s', lex_all (utf8s cs) = Ok ts s /\ lex_all (utf8s cs') = Ok ts' s' /\ map shape ts = map shape ts'.
Proof.
  intros C1 C2 R1 R2 T1 T2 E.
  destruct (lex_complete _ _ _ C1 R1 T1 (or_introl eq_refl)) as (ts & s & E1 & E2).
  destruct (lex_complete _ _ _ C2 R2 T2 (or_introl eq_refl)) as (ts' & s' & E1' & E2').
  exists ts, s, ts', s'. split; [exact E1|]. split; [exact E1'|]. rewrite E2, E2'. f_equal.
  assert (G : forall pre cs toks rest, lexing pre cs toks rest -> clean cs -> regular_blocks cs ->
     Forall (fun k => exists stop, lexeme (skind k) (ssrc k) (slit k) stop /\ clean (ssrc k) /\ 
        exists u, regular_blocks (ssrc k ++ u) /\ ends stop u /\ clean (ssrc k ++ u)) toks).
  { clear. induction 1 as [pre cs|pre c t ts rest Hi H IH|pre b t ts rest Hb Hle H IH|pre k w lit stop t ts rest Hlex He H IH]; intros Hc Hr.
    - constructor.
    - apply IH; [apply (clean_app_r [c] t Hc)|apply (regular_app [c] t Hr)].
    - apply IH; [apply (clean_app_r (35%Z :: b) t Hc)|apply (regular_app (35%Z :: b) t Hr)].
    - constructor; [|apply IH; [apply (clean_app_r w t Hc)|apply (regular_app w t Hr)]].
      exists stop. split; [exact Hlex|]. split; [apply (clean_app_l w t Hc)|]. exists t. auto. }
  pose proof (G _ _ _ _ T1 C1 R1) as G1. pose proof (G _ _ _ _ T2 C2 R2) as G2. clear - G1 G2 E.
  revert toks' G2 E; induction G1 as [|k toks (stop & L & Lc & u & Hu & He & Hcu) G1 IH]; intros [|k' toks'] G2 E; try discriminate; [reflexivity|].
  inversion G2 as [|? ? (stop' & L' & Lc' & u' & Hu' & He' & Hcu') G2']; subst. cbn [map] in *. 
  assert (E' : ssrc k = ssrc k' /\ map ssrc toks = map ssrc toks') by (split; [exact (f_equal (hd []) E)|exact (f_equal (@tl _) E)]).
  destruct E' as [E0 E']. f_equal; [|apply IH; auto].
  rewrite <- E0 in L'.
  destruct (token_unique _ _ _ _ [] _ _ _ _ [] L I L' I eq_refl) as (A1 & _ & A2 & _).
  - rewrite app_nil_r. exact Lc.
  - rewrite app_nil_r. apply (regular_prefix _ u Hu).
  - unfold sshape. congruence.
Qed.

(** ** Where tokens come from, for every clean source (block strings of any shape included). *)
Definition place := (list Z * list Z * list Z)%type.
Definition ok_place (cs : list Z) (t : row) (p : place) : Prop :=
  let '(k, lit, _, _) := t in
  let '(b, w, a) := p in
  cs = b ++ w ++ a /\ w <> [] /\
  ((exists stop, lexeme k w lit stop /\ ends stop a) \/ (k = KString /\ prefix triple w)).
Definition precedes (p q : place) : Prop :=
  let '(b, w, _) := p in let '(b', _, _) := q in exists gap, b' = b ++ w ++ gap.

Lemma ctoken_sound_any cs ln lp k lit l c r ln' lp' :
  clean cs -> ctoken cs ln lp = CTok k lit l c r ln' lp' ->
  exists w, cs = w ++ r /\ w <> [] /\
   ((exists stop, lexeme k w lit stop /\ ends stop r) \/ (k = KString /\ prefix triple w)).
Proof.
  intros Hcl. unfold ctoken. destruct cs as [|x t]; [discriminate|].
  destruct (is_name_start x) eqn:E1.
  { destruct (span is_name_cont t) as [nm r0] eqn:Es. remember (text (x :: nm)) as T eqn:ET.
    intros H; injection H as <- <- _ _ <- _ _. subst T.
    apply span_sound in Es as (-> & H1 & H2). exists (x :: nm). split; [reflexivity|]. split; [discriminate|]. left. exists name_char. split.
    - rewrite text_clean by (apply (clean_app_l (x :: nm) r0), Hcl).
      apply lx_name; [apply is_name_start_spec, E1|]. apply (Forall_bool _ _ _ is_name_cont_spec), H1.
    - unfold ends. destruct r0 as [|y r0]; [exact I|]. intros Hy. apply is_name_cont_spec in Hy. congruence. }
  destruct (is_punct x) eqn:E2.
  { destruct (Z.eqb_spec x 46) as [->|Hd].
    - destruct (match t with x :: y :: _ => (x =? 46) && (y =? 46) | _ => false end) eqn:E3; [|discriminate].
      intros H; injection H as <- <- _ _ <- _ _.
      destruct t as [|a [|b t]]; try discriminate. assert (a = 46%Z /\ b = 46%Z) as [-> ->] by lia.
      exists [46%Z; 46%Z; 46%Z]. split; [reflexivity|]. split; [discriminate|]. left. exists nothing. split; [constructor|]. unfold ends. destruct t; [exact I|intros []].
    - remember (text [x]) as T eqn:ET. intros H; injection H as <- <- _ _ <- _ _. subst T. exists [x]. split; [reflexivity|].
      split; [discriminate|]. left. exists nothing. split.
      + rewrite text_clean by (apply (clean_app_l [x] t), Hcl). apply lx_punct.
        apply is_punct_spec in E2 as [E2|E2]; [exact E2|congruence].
      + unfold ends. destruct t; [exact I|intros []]. }
  destruct (is_digit x || (x =? 45)) eqn:E3.
  { destruct (cnum (x :: t)) as [[[lex fl] r0]|] eqn:E4; [|discriminate].
    intros H; injection H as <- <- _ _ <- _ _. apply cnum_sound in E4 as (E4 & stop & H1 & H2).
    exists lex. split; [exact E4|]. split; [apply (lexeme_nonempty _ _ _ _ H1)|]. left. exists stop.
    rewrite text_clean by (rewrite E4 in Hcl; apply (clean_app_l _ _ Hcl)).
    split; assumption. }
  destruct (Z.eqb_spec x 34) as [->|Hq]; [|discriminate].
  destruct (two_quotes t) eqn:E4.
  - apply two_quotes_spec in E4 as [u ->]. cbn [skipn].
    destruct (cblk u) as [[raw r0]|] eqn:E5; [|discriminate]. intros H; injection H as <- <- _ _ <- _ _.
    destruct (cblk_suffix _ _ _ E5 (clean_app_r triple u Hcl)) as (b & ->).
    exists (triple ++ b). split; [reflexivity|]. split; [discriminate|]. right. split; [reflexivity|]. exists b. reflexivity.
  - destruct (cstr t) as [[v r0]|] eqn:E5; [|discriminate]. intros H; injection H as <- <- _ _ <- _ _.
    destruct (cstr_sound _ _ _ E5) as (b & -> & Hsc).
    exists (34%Z :: b ++ [34%Z]). split; [cbn; rewrite <- app_assoc; reflexivity|]. split; [discriminate|]. left.
    exists (fun c => b = [] /\ c = 34%Z). split.
    + rewrite text_chars; [apply lx_string, Hsc|]. eapply string_chars_range; [exact Hsc|].
      apply clean_range. apply (clean_app_l b (34%Z :: r0)), (clean_app_r [34%Z]), Hcl.
    + unfold ends. destruct r0 as [|y r0]; [exact I|]. intros [-> ->]. discriminate.
Qed.

From Coq Require Import Sorted.

Lemma clex_places f : forall cs pre ln lp, clean cs ->
  exists ps, Forall2 (fun t p => fst (fst (fst t)) <> KEOF -> fst (fst (fst t)) <> KIllegal -> ok_place (pre ++ cs) t p) (clex f cs ln lp) ps /\
    StronglySorted precedes ps /\ Forall (fun p => let '(b, _, _) := p in exists gap, b = pre ++ gap) ps.
Proof.
  induction f as [|f IH]; intros cs pre ln lp Hc.
  { exists []. split; [constructor|]. split; constructor. }
  cbn [clex]. unfold cscan. destruct (skip cs (Norm false) ln lp) as [[r ln1] lp1] eqn:Es.
  destruct (skip_sound _ _ _ _ _ _ _ Es) as (ign & (Ecs & _ & _) & _).
  assert (Hcr : clean r) by (rewrite Ecs in Hc; apply (clean_app_r _ _ Hc)).
  destruct (ctoken r ln1 lp1) as [l c|l c|k lit l c r2 ln2 lp2] eqn:Et.
  - exists [(pre, [], [])]. split; [constructor; [cbn; congruence|constructor]|]. split; [repeat constructor|].
    constructor; [exists []; rewrite app_nil_r; reflexivity|constructor].
  - exists [(pre, [], [])]. split; [constructor; [cbn; congruence|constructor]|]. split; [repeat constructor|].
    constructor; [exists []; rewrite app_nil_r; reflexivity|constructor].
  - destruct (ctoken_sound_any _ _ _ _ _ _ _ _ _ _ Hcr Et) as (w & -> & Hw & Hx).
    destruct (IH r2 ((pre ++ ign) ++ w) ln2 lp2 (clean_app_r _ _ Hcr)) as (ps & P1 & P2 & P3).
    exists ((pre ++ ign, w, r2) :: ps). split; [|split].
    + constructor.
      * intros _ _. cbn. split; [rewrite Ecs, !app_assoc; reflexivity|]. split; [exact Hw|exact Hx].
      * rewrite Ecs. rewrite <- !app_assoc in P1. exact P1.
    + constructor; [exact P2|]. eapply Forall_impl; [|exact P3]. intros [[b w'] a] (gap & ->). exists gap. rewrite <- !app_assoc. reflexivity.
    + constructor; [eexists; reflexivity|]. eapply Forall_impl; [|exact P3]. intros [[b w'] a] (gap & ->).
      exists (ign ++ w ++ gap). rewrite <- !app_assoc. reflexivity.
Qed.

Definition in_source (cs : list Z) (t : token) (p : place) : Prop :=
  let '(b, w, a) := p in
  cs = b ++ w ++ a /\ w <> [] /\
  ((exists stop, lexeme (tkind t) w (tlit t) stop /\ ends stop a) \/ (tkind t = KString /\ prefix triple w)).

Theorem token_places cs : clean cs ->
  exists ts last s' ps, lex_all (utf8s cs) = Ok (ts ++ [last]) s' /\ is_last last = true /\
    Forall2 (in_source cs) ts ps /\ StronglySorted precedes ps.
Proof.
  intros Hc. destruct (lex_all_total (utf8s cs)) as (ts & last & s' & Hl & Hlast & Hts & _).
  pose proof (lex_all_clex cs _ s' Hc Hl) as E.
  destruct (clex_places (fuel_of (utf8s cs)) cs [] 1 0 Hc) as (ps & P1 & P2 & _).
  rewrite <- E in P1. rewrite map_app in P1. apply Forall2_app_inv_l in P1 as (ps1 & ps2 & P1 & _ & ->).
  exists ts, last, s', ps1. split; [exact Hl|]. split; [exact Hlast|]. split.
  - rewrite Forall2_map_l in P1. clear - P1 Hts. induction P1 as [|t p ts ps H P1 IH]; [constructor|].
    inversion Hts; subst. constructor; [|auto]. unfold is_last in *. unfold strip in H. cbn [fst] in H.
    destruct (tkind t) eqn:Ek; try discriminate; specialize (H ltac:(discriminate) ltac:(discriminate));
      unfold ok_place in H; unfold in_source; rewrite Ek; exact H.
  - clear - P2. induction ps1 as [|p ps1 IH]; [constructor|]. cbn [app] in P2. inversion P2; subst.
    constructor; [auto|]. apply Forall_app in H2. tauto.
Qed.
