(** * PropLex: property theorems C01-C09 and C44 (the lexer).
    Model: [Lexer.scan] (one call of Scan) and [Lexer.lex_all] (Scan called until the first EOF or Illegal token).
    Specification: LexSpec.v (lexical grammar on code points), LexCrlf.v (first section), Utf8.v ([utf8], RFC 3629). *)
From Verif Require Import Base Utf8 Utf8Proofs Lexer LexerTotal LexSpec LexAgree LexMain LexCrlf LexProps.
From Coq Require Import Sorted.

(** Deciders, used only to check concrete sources. *)
Fixpoint prefixb (p cs : list Z) : bool :=
  match p, cs with
  | [], _ => true
  | a :: p', c :: cs' => Z.eqb a c && prefixb p' cs'
  | _, [] => false
  end.
Fixpoint containsb (p cs : list Z) : bool :=
  prefixb p cs || match cs with [] => false | _ :: t => containsb p t end.
Lemma prefixb_spec p cs : prefix p cs -> prefixb p cs = true.
Proof. intros (t & ->). induction p as [|a p IH]; [reflexivity|]. cbn. rewrite Z.eqb_refl. exact IH. Qed.
Lemma containsb_spec p cs : contains p cs -> containsb p cs = true.
Proof.
  intros (a & b & ->). induction a as [|x a IH].
  - cbn [app]. destruct (p ++ b) eqn:E; cbn [containsb]; rewrite <- ?E, prefixb_spec; try reflexivity; exists b; auto.
  - cbn [app containsb]. rewrite IH. apply orb_true_r.
Qed.
Definition cleanb (cs : list Z) : bool := forallb (fun c => scalarb c && negb (Z.eqb c 0)) cs.
Lemma cleanb_spec cs : cleanb cs = true -> clean cs.
Proof.
  unfold cleanb, clean. rewrite forallb_forall, Forall_forall. intros H x Hx. specialize (H x Hx).
  apply andb_true_iff in H as [H1 H2]. apply scalarb_spec in H1. apply negb_true_iff, Z.eqb_neq in H2. auto.
Qed.
Definition regularb (cs : list Z) : bool :=
  negb (containsb triple cs) ||
  forallb (fun c => (c =? 9)%Z || (c =? 10)%Z || (32 <=? c)%Z) cs && negb (containsb (92%Z :: 92%Z :: triple) cs).
Lemma regularb_spec cs : regularb cs = true -> regular_blocks cs.
Proof.
  unfold regularb. intros H. apply orb_true_iff in H as [H|H].
  - left. intros Hc. apply containsb_spec in Hc. rewrite Hc in H. discriminate.
  - right. apply andb_true_iff in H as [H1 H2]. split.
    + rewrite forallb_forall in H1. apply Forall_forall. intros x Hx. specialize (H1 x Hx).
      rewrite !orb_true_iff, !Z.eqb_eq, Z.leb_le in H1. tauto.
    + intros Hc. apply containsb_spec in Hc. rewrite Hc in H2. discriminate.
Qed.
Lemma Forall2_impl {A C} (R S : A -> C -> Prop) l m : (forall a c, R a c -> S a c) -> Forall2 R l m -> Forall2 S l m.
Proof. intros H; induction 1; constructor; auto. Qed.
Definition src (s : string) : list Z := map zb (B s).
Definition nl : string := String (ascii_of_nat 10) EmptyString.
Ltac witness := repeat match goal with |- _ /\ _ => split; [vm_compute; reflexivity|] end; vm_compute; reflexivity.
Ltac checked := split; [apply cleanb_spec; vm_compute; reflexivity|apply regularb_spec; vm_compute; reflexivity].

(** ** C01.  Every sequence of Scan calls on every byte slice returns (no panic, no endless loop), never moves past
    the end, and moves by at least one byte for every token that is not EOF. *)
Theorem C01_scan_total : forall (i : bytes) (s : lst), (pos s <= List.length i)%nat ->
  exists t s', scan i s = Ok t s' /\ (pos s <= pos s' <= List.length i)%nat /\
    (tkind t <> KEOF -> (pos s < pos s')%nat).
Proof. exact scan_total. Qed.
Print Assumptions C01_scan_total.

Theorem C01_scans_total : forall (n : nat) (i : bytes) (s : lst), (pos s <= List.length i)%nat ->
  exists ts s', scans n i s = Ok ts s' /\ List.length ts = n /\ (pos s' <= List.length i)%nat /\
    (pos s + List.length (filter (fun t => negb (kind_eqb (tkind t) KEOF)) ts) <= pos s')%nat.
Proof. exact scans_total. Qed.
Print Assumptions C01_scans_total.

Theorem C01_reaches_end : forall i : bytes,
  exists ts last s', lex_all i = Ok (ts ++ [last]) s' /\ (tkind last = KEOF \/ tkind last = KIllegal) /\
    Forall (fun t => tkind t <> KEOF /\ tkind t <> KIllegal) ts /\ (List.length ts <= List.length i)%nat.
Proof.
  intros i. destruct (lex_all_total i) as (ts & last & s' & H1 & H2 & H3 & H4). exists ts, last, s'.
  split; [exact H1|]. split; [unfold is_last in H2; destruct (tkind last); try discriminate; auto|].
  split; [|exact H4]. eapply Forall_impl; [|exact H3]. intros t Ht. unfold is_last in Ht.
  destruct (tkind t); split; discriminate.
Qed.
Print Assumptions C01_reaches_end.

(** non-vacuity: the initial state satisfies the hypothesis for every input, also on ill-formed bytes *)
Example C01_nonvacuous : (pos lex_init <= List.length (B "{ a }"))%nat /\
  exists t s', scan [ascii_of_nat 255; ascii_of_nat 0] lex_init = Ok t s' /\ tkind t = KIllegal.
Proof. split; [cbn; lia|]. eexists _, _. split; vm_compute; reflexivity. Qed.

(** ** C02.  The tokens are those of the lexical grammar (soundness and completeness; [lexing] is deterministic). *)
Theorem C02_tokens : forall cs, clean cs -> regular_blocks cs ->
  exists ts last s' toks rest,
    lex_all (utf8s cs) = Ok (ts ++ [last]) s' /\ lexing [] cs toks rest /\
    Forall2 (fun t k => tkind t = skind k /\ tlit t = slit k) ts toks /\
    (tkind last = KEOF /\ rest = [] \/ tkind last = KIllegal /\ stuck rest).
Proof.
  intros cs Hc Hr. destruct (lex_main cs Hc Hr) as (ts & last & s' & toks & body & rest & H1 & H2 & H3 & H4 & H5 & _).
  exists ts, last, s', toks, rest. split; [exact H1|]. split; [exact H2|]. split; [exact H4|]. tauto.
Qed.
Print Assumptions C02_tokens.

Theorem C02_complete : forall cs toks rest, clean cs -> regular_blocks cs ->
  lexing [] cs toks rest -> rest = [] \/ stuck rest ->
  exists ts s', lex_all (utf8s cs) = Ok ts s' /\
    map shape ts = map (fun k => (skind k, slit k)) toks ++ [match rest with [] => (KEOF, []) | _ => (KIllegal, []) end].
Proof. exact lex_complete. Qed.
Print Assumptions C02_complete.

Theorem C02_grammar_unambiguous : forall cs toks rest toks' rest', clean cs -> regular_blocks cs ->
  lexing [] cs toks rest -> rest = [] \/ stuck rest -> lexing [] cs toks' rest' -> rest' = [] \/ stuck rest' ->
  toks = toks' /\ rest = rest'.
Proof. intros cs toks rest toks' rest' Hc Hr H F H' F'. exact (lexing_unique _ _ _ _ H F Hc Hr _ _ H' F'). Qed.
Print Assumptions C02_grammar_unambiguous.

Example C02_nonvacuous : let cs := src "query Q($a: [Int!] = 12) @d { f(x: -1.5e3, s: ""h\u00e9"") ...F # comment" in
  clean cs /\ regular_blocks cs.
Proof. checked. Qed.
Example C02_nonvacuous_block : let cs := src ("""""""" ++ nl ++ "  a" ++ nl ++ "    b\""""""" ++ nl ++ """"""" x: 0")%string in
  clean cs /\ regular_blocks cs.
Proof. checked. Qed.

(** Outside that domain the lexer departs from the grammar: NUL reads as end of input, also inside a name. *)
Theorem C02_nul_refuted : exists t1 t2 t3 s', lex_all (B "a" ++ [ascii_of_nat 0] ++ B "b") = Ok [t1; t2; t3] s' /\
  tkind t1 = KName /\ tlit t1 = B "a" ++ [ascii_of_nat 0].
Proof. eexists _, _, _, _. witness. Qed.
Print Assumptions C02_nul_refuted.

(** ** C03.  Name tokens are maximal runs of name characters; for every clean source. *)
Theorem C03_names : forall cs, clean cs -> exists ts last s' places,
  lex_all (utf8s cs) = Ok (ts ++ [last]) s' /\
  Forall2 (fun t p => let '(before, w, after) := p in cs = before ++ w ++ after /\
     (tkind t = KName -> (exists c u, w = c :: u /\ letter c /\ Forall name_char u) /\ tlit t = utf8s w /\
                         match after with c :: _ => ~ name_char c | [] => True end)) ts places.
Proof.
  intros cs Hc. destruct (token_places cs Hc) as (ts & last & s' & ps & H1 & _ & H2 & _). exists ts, last, s', ps.
  split; [exact H1|]. eapply Forall2_impl; [|exact H2]. intros t [[b w] a] (E & _ & H). split; [exact E|].
  intros Hk. rewrite Hk in H. destruct H as [(stop & H & He)|[H _]]; [|discriminate].
  inversion H; subst. split; [eauto|]. split; [reflexivity|exact He].
Qed.
Print Assumptions C03_names.

(** ... and every such run is one Name token. *)
Theorem C03_names_complete : forall c w r, letter c -> Forall name_char w ->
  match r with x :: _ => ~ name_char x | [] => True end -> clean (c :: w ++ r) -> regular_blocks (c :: w ++ r) ->
  exists t ts s' ts' s'', lex_all (utf8s (c :: w ++ r)) = Ok (t :: ts) s' /\ tkind t = KName /\ tlit t = utf8s (c :: w) /\
    lex_all (utf8s r) = Ok ts' s'' /\ map shape ts = map shape ts'.
Proof. intros c w r H1 H2 H3 H4 H5. exact (first_token KName (c :: w) _ name_char r (lx_name c w H1 H2) H3 H4 H5). Qed.
Print Assumptions C03_names_complete.

Example C03_nonvacuous : let cs := src "_foo9 {" in
  clean cs /\ regular_blocks cs /\ letter 95 /\ Forall name_char (src "foo9") /\ cs = 95%Z :: src "foo9" ++ src " {".
Proof.
  split; [apply cleanb_spec; vm_compute; reflexivity|]. split; [apply regularb_spec; vm_compute; reflexivity|].
  unfold name_char, letter, digit. split; [lia|]. split; [|reflexivity].
  apply Forall_forall. intros x Hx. vm_compute in Hx. lia.
Qed.

(** Without the restriction to clean sources it fails: a NUL or a stray last byte becomes part of the name. *)
Theorem C03_nul_refuted : exists t ts s', lex_all (B "foo" ++ [ascii_of_nat 0] ++ B "bar") = Ok (t :: ts) s' /\
  tkind t = KName /\ tlit t = B "foo" ++ [ascii_of_nat 0].
Proof. eexists _, _, _. witness. Qed.
Print Assumptions C03_nul_refuted.
Theorem C03_stray_byte_refuted : exists t ts s', lex_all (B "foo" ++ [ascii_of_nat 128]) = Ok (t :: ts) s' /\
  tkind t = KName /\ tlit t = B "foo" ++ [ascii_of_nat 128].
Proof. eexists _, _, _. witness. Qed.
Print Assumptions C03_stray_byte_refuted.

(** ** C04.  Number tokens. *)
Definition float_text (w : list Z) : Prop :=
  (exists i f, w = i ++ f /\ integer_part i /\ fractional_part f) \/
  (exists i e, w = i ++ e /\ integer_part i /\ exponent_part e) \/
  (exists i f e, w = i ++ f ++ e /\ integer_part i /\ fractional_part f /\ exponent_part e).

Theorem C04_numbers : forall cs, clean cs -> exists ts last s' places,
  lex_all (utf8s cs) = Ok (ts ++ [last]) s' /\
  Forall2 (fun t p => let '(before, w, after) := p in cs = before ++ w ++ after /\
     (tkind t = KInt -> integer_part w /\ tlit t = utf8s w /\
        match after with c :: _ => ~ (digit c \/ c = 46%Z \/ exp_mark c) | [] => True end) /\
     (tkind t = KFloat -> float_text w /\ tlit t = utf8s w /\
        match after with c :: _ => ~ digit c | [] => True end)) ts places.
Proof.
  intros cs Hc. destruct (token_places cs Hc) as (ts & last & s' & ps & H1 & _ & H2 & _). exists ts, last, s', ps.
  split; [exact H1|]. eapply Forall2_impl; [|exact H2]. intros t [[b w] a] (E & _ & H). split; [exact E|].
  split; intros Hk; rewrite Hk in H; (destruct H as [(stop & H & He)|[H _]]; [|discriminate]).
  - inversion H; subst. auto.
  - inversion H; subst; (split; [|split; [reflexivity|]]).
    + left. eauto 6. + unfold ends in He. destruct a; [exact I|]. tauto.
    + right; left. eauto 6. + exact He.
    + right; right. eauto 8. + exact He.
Qed.
Print Assumptions C04_numbers.

Theorem C04_int_complete : forall w r, integer_part w ->
  match r with c :: _ => ~ (digit c \/ c = 46%Z \/ exp_mark c) | [] => True end ->
  clean (w ++ r) -> regular_blocks (w ++ r) ->
  exists t ts s' ts' s'', lex_all (utf8s (w ++ r)) = Ok (t :: ts) s' /\ tkind t = KInt /\ tlit t = utf8s w /\
    lex_all (utf8s r) = Ok ts' s'' /\ map shape ts = map shape ts'.
Proof. intros w r H1 H2 H3 H4. exact (first_token KInt w _ _ r (lx_int w H1) H2 H3 H4). Qed.
Print Assumptions C04_int_complete.

Theorem C04_float_complete : forall w r, float_text w ->
  match r with c :: _ => ~ (digit c \/ exp_mark c) | [] => True end ->
  clean (w ++ r) -> regular_blocks (w ++ r) ->
  exists t ts s' ts' s'', lex_all (utf8s (w ++ r)) = Ok (t :: ts) s' /\ tkind t = KFloat /\ tlit t = utf8s w /\
    lex_all (utf8s r) = Ok ts' s'' /\ map shape ts = map shape ts'.
Proof.
  intros w r H1 H2 H3 H4.
  assert (H2' : ends digit r) by (unfold ends; destruct r; [exact I|tauto]).
  destruct H1 as [(i & f & -> & Hi & Hf)|[(i & e & -> & Hi & He)|(i & f & e & -> & Hi & Hf & He)]].
  - exact (first_token KFloat _ _ _ r (lx_float_frac i f Hi Hf) H2 H3 H4).
  - exact (first_token KFloat _ _ _ r (lx_float_exp i e Hi He) H2' H3 H4).
  - exact (first_token KFloat _ _ _ r (lx_float_both i f e Hi Hf He) H2' H3 H4).
Qed.
Print Assumptions C04_float_complete.

Theorem C04_malformed_illegal : forall cs, bad_number cs -> clean cs ->
  exists t s', lex_all (utf8s cs) = Ok [t] s' /\ tkind t = KIllegal.
Proof. exact bad_number_illegal. Qed.
Print Assumptions C04_malformed_illegal.

Example C04_nonvacuous : integer_part (src "-120") /\ float_text (src "0.5E-7") /\ bad_number (src "00") /\
  bad_number (src "-a") /\ bad_number (src "1.}") /\ bad_number (src "3e+ ").
Proof.
  assert (D : forall s, forallb (fun c => (48 <=? c)%Z && (c <=? 57)%Z) (src s) = true -> Forall digit (src s)).
  { intros s H. rewrite forallb_forall in H. apply Forall_forall. intros x Hx. specialize (H x Hx). unfold digit. lia. }
  assert (I1 : integer_part [49%Z]) by (left; apply (np_nonzero 49 []); [lia|constructor]).
  split; [|split; [|split; [|split; [|split]]]].
  - right. exists (src "120"). split; [reflexivity|]. apply (np_nonzero 49 (src "20")); [lia|apply D; reflexivity].
  - right; right. exists (src "0"), (src ".5"), (src "E-7"). split; [reflexivity|]. split; [left; constructor|]. split.
    + exists (src "5"). split; [reflexivity|]. split; [discriminate|apply D; reflexivity].
    + exists 69%Z, [45%Z], (src "7"). split; [reflexivity|]. split; [auto|]. split; [auto|]. split; [discriminate|apply D; reflexivity].
  - apply (bn_zero [] 48 []); [auto|unfold digit; lia].
  - apply (bn_sign [97%Z]). cbn. unfold digit. lia.
  - apply (bn_frac [49%Z] [125%Z]); [exact I1|cbn; unfold digit; lia].
  - apply (bn_exp [51%Z] 101 [43%Z] [32%Z]); [left; apply (np_nonzero 51 []); [lia|constructor]|left; reflexivity|auto|cbn; unfold digit; lia|discriminate].
Qed.

Theorem C04_nul_refuted : exists t ts s', lex_all (B "12" ++ [ascii_of_nat 0]) = Ok (t :: ts) s' /\
  tkind t = KInt /\ tlit t = B "12" ++ [ascii_of_nat 0].
Proof. eexists _, _, _. witness. Qed.
Print Assumptions C04_nul_refuted.

(** ** C05.  Quoted strings: decoding, and exactly which bodies are refused. *)
Theorem C05_strings : forall b v r, string_chars b v -> (b = [] -> ~ prefix [34%Z] r) ->
  clean (34%Z :: b ++ 34%Z :: r) -> regular_blocks (34%Z :: b ++ 34%Z :: r) ->
  exists t ts s' ts' s'', lex_all (utf8s (34%Z :: b ++ 34%Z :: r)) = Ok (t :: ts) s' /\
    tkind t = KString /\ tlit t = chars_utf8 v /\
    lex_all (utf8s r) = Ok ts' s'' /\ map shape ts = map shape ts'.
Proof.
  intros b v r H1 H2 H3 H4. pose proof (first_token KString _ _ _ r (lx_string b v H1)) as F.
  cbn [app] in F. rewrite <- app_assoc in F. cbn [app] in F. apply F; try assumption.
  unfold ends. destruct r as [|c r]; [exact I|]. intros [Hb ->]. apply (H2 Hb). exists r. reflexivity.
Qed.
Print Assumptions C05_strings.

Theorem C05_string_tokens : forall cs, clean cs -> exists ts last s' places,
  lex_all (utf8s cs) = Ok (ts ++ [last]) s' /\
  Forall2 (fun t p => let '(before, w, after) := p in cs = before ++ w ++ after /\
     (tkind t = KString -> prefix triple w \/
        exists b v, w = 34%Z :: b ++ [34%Z] /\ string_chars b v /\ tlit t = chars_utf8 v)) ts places.
Proof.
  intros cs Hc. destruct (token_places cs Hc) as (ts & last & s' & ps & H1 & _ & H2 & _). exists ts, last, s', ps.
  split; [exact H1|]. eapply Forall2_impl; [|exact H2]. intros t [[b w] a] (E & _ & H). split; [exact E|].
  intros Hk. rewrite Hk in H. destruct H as [(stop & H & He)|[_ H]]; [|left; exact H].
  inversion H; subst; [right; eauto 6|left]. eexists; reflexivity.
Qed.
Print Assumptions C05_string_tokens.

Theorem C05_bad_strings_illegal : forall b v r, string_chars b v -> bad_string_tail r -> clean (34%Z :: b ++ r) ->
  exists t s', lex_all (utf8s (34%Z :: b ++ r)) = Ok [t] s' /\ tkind t = KIllegal.
Proof. exact bad_string. Qed.
Print Assumptions C05_bad_strings_illegal.

Example C05_nonvacuous : string_chars (src "h\u00E9\n") [104; 233; 10]%Z /\
  chars_utf8 [104; 233; 10]%Z = [ascii_of_nat 104; ascii_of_nat 195; ascii_of_nat 169; ascii_of_nat 10] /\
  bad_string_tail (src "\x") /\ bad_string_tail (src "\u12G4") /\ bad_string_tail (10%Z :: src "x").
Proof.
  split; [|split; [vm_compute; reflexivity|split; [|split]]].
  - apply sc_char; [lia|lia|lia|].
    apply (sc_unicode 48 48 69 57 0 0 14 9); [constructor; lia|constructor; lia|apply (hex_upper 69); lia|constructor; lia|].
    apply (sc_escape 110 10); [unfold escape; cbn; tauto|constructor].
  - right; right; left. exists 120%Z, []. split; [reflexivity|]. split; [lia|]. intros (x & H). cbn in H.
    repeat destruct H as [H|H]; try discriminate. exact H.
  - right; right; right. exists 49%Z, 50%Z, 71%Z, 52%Z, []. split; [reflexivity|]. right; right; left.
    intros (x & H). inversion H; lia.
  - right; left. exists 10%Z, (src "x"). split; [reflexivity|lia].
Qed.

(** ** C06.  Block strings, on sources without CR, stray control characters and two backslashes before triple quotes. *)
Theorem C06_block_strings : forall b raw r, block_chars b raw ->
  Forall (fun c => c = 9%Z \/ c = 10%Z \/ (32 <= c)%Z) (b ++ r) -> ~ contains (92%Z :: 92%Z :: triple) (triple ++ b ++ triple ++ r) ->
  clean (triple ++ b ++ triple ++ r) ->
  exists t ts s' ts' s'', lex_all (utf8s (triple ++ b ++ triple ++ r)) = Ok (t :: ts) s' /\
    tkind t = KString /\ tlit t = chars_utf8 (block_string_value raw) /\
    lex_all (utf8s r) = Ok ts' s'' /\ map shape ts = map shape ts'.
Proof.
  intros b raw r H1 H2 H3 H4. pose proof (first_token KString _ _ _ r (lx_block b raw H1)) as F.
  rewrite <- !app_assoc in F. apply F; [unfold ends; destruct r; [exact I|intros []]|exact H4|].
  right. split; [|exact H3]. apply Forall_app in H2 as [A1 A2].
  assert (T : Forall (fun c => c = 9%Z \/ c = 10%Z \/ (32 <= c)%Z) triple) by (unfold triple; repeat constructor; lia).
  rewrite !Forall_app. auto.
Qed.
Print Assumptions C06_block_strings.

Example C06_nonvacuous : exists b raw, block_chars b raw /\ clean (triple ++ b ++ triple) /\
  Forall (fun c => c = 9%Z \/ c = 10%Z \/ (32 <= c)%Z) (b ++ []) /\
  ~ contains (92%Z :: 92%Z :: triple) (triple ++ b ++ triple) /\
  block_string_value raw = src ("a" ++ nl ++ "  b """"""")%string.
Proof.
  exists (10%Z :: src "  a" ++ 10%Z :: src "    b \""""""" ++ [10%Z; 32%Z]),
         (10%Z :: src "  a" ++ 10%Z :: src "    b """"""" ++ [10%Z; 32%Z]).
  split.
  { vm_compute. 
    assert (P : forall p cs, prefixb p cs = false -> ~ prefix p cs).
    { intros p cs E H. apply prefixb_spec in H. congruence. }
    repeat first [ apply bc_escape
                 | apply bc_char; [lia|apply P; vm_compute; reflexivity|apply P; vm_compute; reflexivity|]
                 | apply bc_nil ]. }
  split; [apply cleanb_spec; vm_compute; reflexivity|].
  split; [apply Forall_forall; intros x Hx; vm_compute in Hx; lia|].
  split; [intros Hx; apply containsb_spec in Hx; vm_compute in Hx; discriminate|]. vm_compute. reflexivity.
Qed.

(** Elsewhere the implementation departs from the specification. *)
Definition cr : ascii := ascii_of_nat 13.
Definition lf : ascii := ascii_of_nat 10.
Definition q3 : bytes := B """""""".
(** CR LF counts as two line terminators *)
Theorem C06_crlf_refuted : exists t ts s', lex_all (q3 ++ B "a" ++ [cr; lf] ++ B "b" ++ q3) = Ok (t :: ts) s' /\
  tkind t = KString /\ tlit t = B "a" ++ [lf; lf] ++ B "b" /\
  block_string_value (src "a" ++ [13; 10]%Z ++ src "b") = src "a" ++ [10%Z] ++ src "b".
Proof. eexists _, _, _. witness. Qed.
Print Assumptions C06_crlf_refuted.
(** a CR two characters before a LF is dropped altogether *)
Theorem C06_cr_dropped_refuted : exists t ts s', lex_all (q3 ++ B "a" ++ [cr] ++ B "b" ++ [lf] ++ B "c" ++ q3) = Ok (t :: ts) s' /\
  tkind t = KString /\ tlit t = B "ab" ++ [lf] ++ B "c" /\
  block_string_value (src "a" ++ [13%Z] ++ src "b" ++ [10%Z] ++ src "c") = src "a" ++ [10%Z] ++ src "b" ++ [10%Z] ++ src "c".
Proof. eexists _, _, _. witness. Qed.
Print Assumptions C06_cr_dropped_refuted.
(** a backslash hides the next character, so an escaped-looking backslash before the closing quotes is accepted ... *)
Theorem C06_backslash_refuted : exists t t' s', lex_all (q3 ++ B "a\\" ++ q3) = Ok [t; t'] s' /\
  tkind t = KString /\ tlit t = B "a\\" /\ tkind t' = KEOF.
Proof. eexists _, _, _. witness. Qed.
Print Assumptions C06_backslash_refuted.
(** ... and so is a control character. *)
Theorem C06_control_refuted : exists t t' s', lex_all (q3 ++ B "a\" ++ [ascii_of_nat 1] ++ q3) = Ok [t; t'] s' /\
  tkind t = KString /\ tlit t = B "a\" ++ [ascii_of_nat 1] /\ tkind t' = KEOF.
Proof. eexists _, _, _. witness. Qed.
Print Assumptions C06_control_refuted.

(** ** C07.  Positions. *)
(** Lines: sources without CR. *)
Theorem C07_lines : forall cs, clean cs -> regular_blocks cs -> Forall (fun c => c <> 13%Z) cs ->
  exists ts last s' toks body rest,
    lex_all (utf8s cs) = Ok (ts ++ [last]) s' /\ lexing [] cs toks rest /\ cs = body ++ rest /\
    (rest = [] \/ stuck rest) /\
    Forall2 (fun t k => tkind t = skind k /\ tlit t = slit k /\ tline t = line_of (sbefore k)) ts toks /\
    tline last = line_of body.
Proof.
  intros cs Hc Hr Hn. destruct (lex_main cs Hc Hr) as (ts & last & s' & toks & body & rest & H1 & H2 & H3 & H4 & H5 & H6 & _).
  destruct (H6 Hn) as [H7 H8]. exists ts, last, s', toks, body, rest. split; [exact H1|]. split; [exact H2|]. split; [exact H3|].
  split; [tauto|]. split; [|exact H8]. clear - H4 H7. induction H4 as [|t k ts toks [A1 A2] H4 IH]; inversion H7; subst; constructor; auto.
Qed.
Print Assumptions C07_lines.

(** Columns: sources without CR and triple quotes that do not end in two quotes; the column of the final Illegal
    token moreover needs two characters after a quote. *)
Theorem C07_columns : forall cs, clean cs -> Forall (fun c => c <> 13%Z) cs -> ~ contains triple cs ->
  (~ exists a, cs = a ++ [34%Z; 34%Z]) ->
  exists ts last s' toks body rest,
    lex_all (utf8s cs) = Ok (ts ++ [last]) s' /\ lexing [] cs toks rest /\ cs = body ++ rest /\
    (rest = [] \/ stuck rest) /\
    Forall2 (fun t k => tkind t = skind k /\ tlit t = slit k /\ tline t = line_of (sbefore k) /\
                        tcol t = Z.of_nat (column_of (sbefore k))) ts toks /\
    tline last = line_of body /\
    (~ (rest = [34%Z] \/ exists x, rest = [34%Z; x]) -> tcol last = Z.of_nat (column_of body)).
Proof.
  intros cs Hc Hn Ht Hd. destruct (lex_main cs Hc (or_introl Ht)) as (ts & last & s' & toks & body & rest & H1 & H2 & H3 & H4 & H5 & H6 & H7 & _).
  destruct (H6 Hn) as [A1 A2]. destruct (H7 Hn Ht Hd) as [B1 B2].
  exists ts, last, s', toks, body, rest. split; [exact H1|]. split; [exact H2|]. split; [exact H3|].
  split; [tauto|]. split; [|split; [exact A2|exact B2]]. clear - H4 A1 B1.
  induction H4 as [|t k ts toks [E1 E2] H4 IH]; inversion A1; inversion B1; subst; constructor; auto.
Qed.
Print Assumptions C07_columns.

Example C07_nonvacuous : let cs := src ("{ a" ++ nl ++ "  bc(d: ""x"") }" ++ nl)%string in
  (clean cs /\ regular_blocks cs) /\ Forall (fun c => c <> 13%Z) cs /\ ~ contains triple cs /\ (~ exists a, cs = a ++ [34%Z; 34%Z]).
Proof.
  cbv zeta. split; [checked|]. split; [apply Forall_forall; intros x Hx; vm_compute in Hx; lia|].
  split; [intros H; apply containsb_spec in H; vm_compute in H; discriminate|].
  intros (a & H). apply (f_equal (@rev Z)) in H. rewrite rev_app_distr in H. vm_compute in H. discriminate.
Qed.

(** Sources whose line breaks are all CR LF (and without triple quotes): every line is the token's own, and every column is
    its own, or one more when the line was begun by a line break that does not end a comment. *)
Theorem C07_crlf : forall cs, clean cs -> crlf_text cs -> ~ contains triple cs ->
  exists ts last s' toks body rest,
    lex_all (utf8s cs) = Ok (ts ++ [last]) s' /\ lexing [] cs toks rest /\ cs = body ++ rest /\
    (rest = [] \/ stuck rest) /\
    Forall2 (fun t k => tkind t = skind k /\ tlit t = slit k /\ tline t = line_of (sbefore k)) ts toks /\
    tline last = line_of body /\
    ((~ exists a, cs = a ++ [34%Z; 34%Z]) ->
       Forall2 (fun t k => tcol t = Z.of_nat (column_of (sbefore k) + if shifted (sbefore k) then 1 else 0)) ts toks /\
       (~ (rest = [34%Z] \/ exists x, rest = [34%Z; x]) -> tcol last = Z.of_nat (column_of body + if shifted body then 1 else 0))).
Proof. exact lex_crlf. Qed.
Print Assumptions C07_crlf.

(** On the first line nothing is shifted, after a line break outside comments everything is, after one that ends a comment
    nothing is. *)
Theorem C07_crlf_first : forall pre, Forall (fun c => c <> 10%Z /\ c <> 13%Z) pre -> shifted pre = false.
Proof. exact shifted_first_line. Qed.
Print Assumptions C07_crlf_first.
Theorem C07_crlf_lines : forall pre l s, Forall (fun c => c <> 10%Z /\ c <> 13%Z /\ c <> 34%Z) l ->
  Forall (fun c => c <> 10%Z /\ c <> 13%Z) s -> in_code pre ->
  (~ In 35%Z l -> shifted (pre ++ l ++ [13; 10]%Z ++ s) = true) /\
  (In 35%Z l -> shifted (pre ++ l ++ [13; 10]%Z ++ s) = false).
Proof. exact shifted_lines. Qed.
Print Assumptions C07_crlf_lines.

Example C07_crlf_nonvacuous : let nl := [13; 10]%Z in let cs := src "{ # a" ++ nl ++ src "b ""#"" }" ++ nl ++ src "c" in
  (clean cs /\ regular_blocks cs) /\ crlf_text cs /\ (~ contains triple cs) /\ (~ exists a, cs = a ++ [34%Z; 34%Z]) /\
  map shifted [src "{ # a"; src "{ # a" ++ nl ++ src "b"; src "{ # a" ++ nl ++ src "b ""#"" }" ++ nl] = [false; false; true].
Proof.
  cbv zeta. split; [checked|].
  split; [vm_compute; repeat (first [apply ct_break|apply ct_char; [discriminate|discriminate|]|apply ct_end])|].
  split; [intros H; apply containsb_spec in H; vm_compute in H; discriminate|].
  split; [|vm_compute; reflexivity].
  intros (a & H). apply (f_equal (@rev Z)) in H. rewrite (rev_app_distr a) in H. vm_compute in H. discriminate.
Qed.

(** the column after CR LF is one too large (b is the first character of line 2) *)
Theorem C07_crlf_refuted : exists t1 t2 t3 s', lex_all (B "a" ++ [cr; lf] ++ B "b") = Ok [t1; t2; t3] s' /\
  tlit t2 = B "b" /\ tline t2 = line_of (src "a" ++ [13; 10]%Z) /\ tcol t2 = 2%Z /\ column_of (src "a" ++ [13; 10]%Z) = 1%nat.
Proof. eexists _, _, _, _. witness. Qed.
Print Assumptions C07_crlf_refuted.
(** after one CR the following line feeds are not counted *)
Theorem C07_line_refuted : exists t1 t2 t3 s', lex_all (B "a" ++ [cr; lf; lf] ++ B "b") = Ok [t1; t2; t3] s' /\
  tlit t2 = B "b" /\ tline t2 = 2%nat /\ line_of (src "a" ++ [13; 10; 10]%Z) = 3%nat.
Proof. eexists _, _, _, _. witness. Qed.
Print Assumptions C07_line_refuted.
(** a line feed inside a block string does not restart the column *)
Theorem C07_block_refuted : exists t1 t2 t3 s', lex_all (q3 ++ [lf] ++ q3 ++ B " b") = Ok [t1; t2; t3] s' /\
  tlit t2 = B "b" /\ tcol t2 = 9%Z /\ column_of (triple ++ [10%Z] ++ triple ++ [32%Z]) = 5%nat.
Proof. eexists _, _, _, _. witness. Qed.
Print Assumptions C07_block_refuted.
(** an empty string at the very end of the source is reported one column to the left *)
Theorem C07_empty_string_refuted : exists t1 t2 t3 s', lex_all (B "a """"") = Ok [t1; t2; t3] s' /\
  tkind t2 = KString /\ tcol t2 = 2%Z /\ column_of (src "a ") = 3%nat.
Proof. eexists _, _, _, _. witness. Qed.
Print Assumptions C07_empty_string_refuted.
(** an unterminated quote at the end of the source *)
Theorem C07_dangling_quote_refuted : exists t s', lex_all (B """") = Ok [t] s' /\ tkind t = KIllegal /\ tcol t = 0%Z.
Proof. eexists _, _. witness. Qed.
Print Assumptions C07_dangling_quote_refuted.

(** ** C08.  The private rune encoder. *)
Theorem C08_encode : forall c, scalar c -> encode_rune c = utf8 c.
Proof. exact encode_rune_utf8. Qed.
Print Assumptions C08_encode.
Theorem C08_decode : forall c rest, scalar c -> decode_rune (encode_rune c ++ rest) = (c, List.length (encode_rune c)).
Proof. intros c rest H. rewrite (encode_rune_utf8 c H). apply decode_utf8, H. Qed.
Print Assumptions C08_decode.
Theorem C08_invalid : forall r, (-2147483648 <= r < 2147483648)%Z -> ~ scalar r -> encode_rune r = utf8 65533.
Proof. exact encode_rune_invalid. Qed.
Print Assumptions C08_invalid.
Theorem C08_length : forall c, (1 <= List.length (utf8 c) <= 4)%nat.
Proof. exact Utf8Proofs.utf8_length. Qed.
Print Assumptions C08_length.
Example C08_nonvacuous : scalar 128515 /\ utf8 128515 = map ascii_of_nat [240; 159; 152; 131] /\ ~ scalar 55357 /\
  utf8 65533 = map ascii_of_nat [239; 191; 189].
Proof. unfold scalar. split; [lia|]. split; [vm_compute; reflexivity|]. split; [lia|vm_compute; reflexivity]. Qed.

(** ** C09.  Ignored text. *)
(** The tokens of a source depend only on the source texts of its lexemes, not on what separates them. *)
Theorem C09_only_lexemes_matter : forall cs cs' toks toks',
  clean cs -> clean cs' -> regular_blocks cs -> regular_blocks cs' ->
  tokens_of cs toks -> tokens_of cs' toks' -> map ssrc toks = map ssrc toks' ->
  exists ts s ts' s', lex_all (utf8s cs) = Ok ts s /\ lex_all (utf8s cs') = Ok ts' s' /\ map shape ts = map shape ts'.
Proof. exact tokens_by_lexemes. Qed.
Print Assumptions C09_only_lexemes_matter.

(** Inserting ignored text [g] at the start of the source or right after any token changes no token. *)
Theorem C09_insertion : forall a b ta tb rest g,
  lexing [] (a ++ b) ta b -> (a = [] \/ exists k ta', ta = ta' ++ [k] /\ sbefore k ++ ssrc k = a) ->
  lexing a b tb rest -> rest = [] \/ stuck rest -> ignored_text g ->
  clean (a ++ g ++ b) -> regular_blocks (a ++ b) -> regular_blocks (a ++ g ++ b) ->
  exists ts s ts' s', lex_all (utf8s (a ++ b)) = Ok ts s /\ lex_all (utf8s (a ++ g ++ b)) = Ok ts' s' /\
    map shape ts = map shape ts'.
Proof. exact insert_ignored. Qed.
Print Assumptions C09_insertion.

Example C09_nonvacuous : exists ta tb, let a := src "a" in let b := src " b" in let g := src ", #c" ++ [10%Z; 65279%Z] in
  lexing [] (a ++ b) ta b /\ (exists k ta', ta = ta' ++ [k] /\ sbefore k ++ ssrc k = a) /\ lexing a b tb [] /\
  ignored_text g /\ clean (a ++ g ++ b) /\ regular_blocks (a ++ b) /\ regular_blocks (a ++ g ++ b).
Proof.
  assert (L : forall c, c = 97%Z \/ c = 98%Z -> lexeme KName [c] (utf8s [c]) name_char).
  { intros c Hc. apply lx_name; [unfold letter; lia|constructor]. }
  exists [mkStok KName (B "a") [] (src "a")], [mkStok KName (B "b") (src "a ") (src "b")]. cbv zeta. split; [|split; [|split; [|split]]].
  - eapply (lg_token [] KName (src "a")); [apply (L 97%Z); auto|cbn; unfold name_char, letter, digit; lia|constructor].
  - eexists _, []. split; reflexivity.
  - apply lg_ignored; [vm_compute; lia|].
    apply (lg_token (src "a ") KName (src "b") (B "b") name_char []); [apply (L 98%Z); auto|exact I|constructor].
  - apply it_char; [vm_compute; lia|]. apply it_char; [vm_compute; lia|].
    apply (it_comment (src "c") 10 [65279%Z]); [constructor; [vm_compute; lia|constructor]|left; reflexivity|].
    apply it_char; [vm_compute; lia|constructor].
  - split; [apply cleanb_spec; vm_compute; reflexivity|]. split; apply regularb_spec; vm_compute; reflexivity.
Qed.

(** ** C44.  Where literals come from: tokens occupy disjoint, increasing, non-empty stretches of the source; except for
    strings the literal is that stretch itself, and for an escape-free quoted string it is the text between the quotes. *)
Theorem C44_verbatim : forall cs, clean cs -> exists ts last s' places,
  lex_all (utf8s cs) = Ok (ts ++ [last]) s' /\
  Forall2 (fun t p => let '(before, w, after) := p in cs = before ++ w ++ after /\ w <> [] /\
     (tkind t <> KString -> tlit t = utf8s w) /\
     (forall b, tkind t = KString -> w = 34%Z :: b ++ [34%Z] -> ~ prefix triple w -> ~ In 92%Z b -> tlit t = utf8s b)) ts places /\
  StronglySorted (fun p q => let '(b1, w1, _) := p in let '(b2, _, _) := q in exists gap, b2 = b1 ++ w1 ++ gap) places.
Proof.
  intros cs Hc. destruct (token_places cs Hc) as (ts & last & s' & ps & H1 & _ & H2 & H3). exists ts, last, s', ps.
  split; [exact H1|]. split; [|exact H3]. eapply Forall2_impl; [|exact H2]. intros t [[b w] a] (E & Hw & H).
  split; [exact E|]. split; [exact Hw|]. split.
  - intros Hk. destruct H as [(stop & H & He)|[H _]]; [|congruence]. inversion H; subst; try reflexivity; congruence.
  - intros b0 Hk Ew Ht Hb. destruct H as [(stop & H & He)|[_ H]]; [|contradiction].
    rewrite Hk in H. inversion H as [| | | | | | |b1 v Hs Ek Ew' El|b1 raw Hs Ek Ew']; subst.
    + injection Ew' as Ew'. apply app_inv_tail in Ew'. subst b1.
      assert (v = b0) as ->.
      { clear - Hs Hb. induction Hs as [|c b v Hc H1 H2 H IH| |]; [reflexivity| | |].
        - f_equal. apply IH. intros Hi. apply Hb. right. exact Hi.
        - exfalso. apply Hb. left. reflexivity. - exfalso. apply Hb. left. reflexivity. }
      apply scalars_chars. unfold clean in Hc. rewrite !Forall_app in Hc. destruct Hc as (_ & Hc & _).
      apply Forall_inv_tail in Hc. apply Forall_app in Hc as [Hc _]. eapply Forall_impl; [|exact Hc]. intros x Hx; apply Hx.
    + exfalso. apply Ht. eexists. symmetry. exact Ew'.
Qed.
Print Assumptions C44_verbatim.
Example C44_nonvacuous : clean (src "{ user(id: 4, name: ""plain"") { a ... F } }").
Proof. apply cleanb_spec. vm_compute. reflexivity. Qed.
