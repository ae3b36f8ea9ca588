(** * PropParseErr: property theorems C46 — what a parse error says, and that it is final.
    Model: [Parser.parse]; proofs in ParserLocal.v. *)
From Verif Require Import Base Utf8 Lexer LexerTotal AST Parser Grammar ParserWp ParserSound PropParse ParserLocal.

(** *** Specification. *)
(** The message quotes the token [t]: its line and column, its kind and its text. *)
Definition quotes (msg : bytes) (t : token) : Prop := exists wanted,
  msg = B "parser error: unexpected token found at line: " ++ itoa (Z.of_nat (tline t)) ++ B ", column: " ++ itoa (tcol t)
        ++ B ". Found: " ++ kind_name (tkind t) ++ B " '" ++ tlit t ++ B "'." ++ wanted.
(** The message complains about the literal of [t], a number that strconv refuses.  It shows the literal, every byte that is not printable
    ASCII as \x and two lowercase hexadecimal digits, and one of two reasons; when the literal is a number and nothing else (a NUL byte
    or a stray byte behind it is taken for a part of it), it is thus shown as it is, and the reason is that it is too big.  Behind an integer [ds] such a byte [b] is the reason, unless the integer
    alone is beyond 64 bits. *)
Definition hex_value (h : byte) (v : Z) : Prop := nth_error (B "0123456789abcdef") (Z.to_nat v) = Some h /\ (0 <= v)%Z.
Inductive spelt : bytes -> bytes -> Prop :=
| sp_nil : spelt [] []
| sp_plain b l s : (32 <= zb b < 127)%Z -> spelt l s -> spelt (b :: l) (b :: s)
| sp_hex b h1 h2 v1 v2 l s : ~ (32 <= zb b < 127)%Z -> hex_value h1 v1 -> hex_value h2 v2 -> (zb b = 16 * v1 + v2)%Z -> spelt l s -> spelt (b :: l) (B "\x" ++ h1 :: h2 :: s).
Definition a_digit (b : byte) : Prop := (48 <= zb b <= 57)%Z.
Definition whole_number (l : bytes) : Prop := Forall a_digit l \/ exists l', l = B "-" ++ l' /\ Forall a_digit l'.
Definition float_number (l : bytes) : Prop := Forall (fun b => a_digit b \/ In b (B "+-.eE")) l.
Definition bad_number (msg : bytes) (t : token) : Prop := exists f shown reason,
  msg = B "strconv." ++ f ++ B ": parsing """ ++ shown ++ B """: " ++ reason /\
  spelt (tlit t) shown /\ In reason [B "value out of range"; B "invalid syntax"] /\
  (tkind t = KInt /\ f = B "Atoi" /\ (whole_number (tlit t) -> shown = tlit t /\ reason = B "value out of range") /\
     (forall sign ds z b more, sign = [] \/ sign = B "-" -> tlit t = sign ++ ds ++ b :: more -> digits_denote ds z -> ~ a_digit b ->
       ((2 ^ 64 <= z)%Z /\ reason = B "value out of range" \/ (z < 2 ^ 64)%Z /\ reason = B "invalid syntax")) \/
   tkind t = KFloat /\ f = B "ParseFloat" /\ (float_number (tlit t) -> shown = tlit t /\ reason = B "value out of range")).
(** [pre] has been read, [t] is the next token. *)
Definition about (msg : bytes) (pre : list token) (t : token) : Prop :=
  quotes msg t \/ msg = B "TODO: see `parseDefinition`" \/
  exists pre' u, pre = pre' ++ [u] /\ (quotes msg u \/ bad_number msg u).

(** *** The theorem. *)
Lemma shown_ascii l : Forall (fun b => 32 <= zb b < 127)%Z l -> flat_map quote_byte l = l.
Proof. induction 1 as [|b l H _ IH]; [reflexivity|]. cbn [flat_map]. unfold quote_byte at 1. replace (Z.leb 32 (zb b) && Z.ltb (zb b) 127) with true by (destruct (Z.leb_spec 32 (zb b)), (Z.ltb_spec (zb b) 127); auto; lia). rewrite IH. reflexivity. Qed.
Lemma refused_digits l : Forall a_digit l -> forall acc, int_refused acc l = out_of_range.
Proof.
  induction 1 as [|b l H _ IH]; intros acc; [reflexivity|]. cbn [int_refused]. replace (is_digit_b b) with true by (unfold is_digit_b, is_digit, a_digit in *; symmetry; apply andb_true_intro; split; apply Z.leb_le; lia).
  destruct (Z.ltb _ _); [reflexivity|apply IH].
Qed.
Lemma digit_ascii l : Forall a_digit l -> Forall (fun b => 32 <= zb b < 127)%Z l.
Proof. apply Forall_impl. unfold a_digit. intros b H. lia. Qed.
Lemma hex_ok n : (0 <= n < 16)%Z -> hex_value (lower_hex n) n.
Proof.
  intros H. assert (E : forallb (fun k => match nth_error (B "0123456789abcdef") k with Some h => Ascii.eqb h (lower_hex (Z.of_nat k)) | None => false end) (seq 0 16) = true) by (vm_compute; reflexivity).
  pose proof (proj1 (forallb_forall _ _) E (Z.to_nat n) ltac:(apply in_seq; lia)) as K. cbv beta in K. rewrite Z2Nat.id in K by lia. split; [|lia].
  destruct (nth_error _ _) as [h|]; [|discriminate]. apply Ascii.eqb_eq in K. congruence.
Qed.
Lemma spelt_ok l : spelt l (flat_map quote_byte l).
Proof.
  induction l as [|b l IH]; [constructor|]. cbn [flat_map]. unfold quote_byte at 1. destruct (Z.leb_spec 32 (zb b)), (Z.ltb_spec (zb b) 127); cbn [andb]; [apply sp_plain; [lia|exact IH]|..].
  all: rewrite <- app_assoc; cbn [app]; pose proof (zb_range b) as R; eapply (sp_hex b _ _ (zb b / 16) (zb b mod 16)); [lia|apply hex_ok; split; [apply Z.div_pos; lia|apply Z.div_lt_upper_bound; lia]|apply hex_ok, Z.mod_pos_bound; lia|apply Z.div_mod; lia|exact IH].
Qed.
Lemma int_reason l : forall acc, In (int_refused acc l) [B "value out of range"; B "invalid syntax"].
Proof. induction l as [|b l IH]; intros acc; cbn [int_refused]; [left; reflexivity|]. destruct (is_digit_b b); [|right; left; reflexivity]. cbv zeta. destruct (Z.ltb _ _); [left; reflexivity|apply IH]. Qed.
Lemma refused_prefix ds z : digits_denote ds z -> forall l, int_refused 0 (ds ++ l) = if Z.ltb 18446744073709551615 z then out_of_range else int_refused z l.
Proof.
  assert (Dig : forall b, (48 <= zb b <= 57)%Z -> is_digit_b b = true) by (intros b H; unfold is_digit_b, is_digit; apply andb_true_intro; split; apply Z.leb_le; lia).
  induction 1 as [b Hb|ds z b Hd IH Hb]; intros l.
  - cbn [app int_refused]. rewrite (Dig b Hb). cbv zeta. replace (10 * 0 + (zb b - 48))%Z with (zb b - 48)%Z by lia. reflexivity.
  - rewrite <- app_assoc. cbn [app]. rewrite IH. cbn [int_refused]. rewrite (Dig b Hb). cbv zeta. destruct (Z.ltb_spec 18446744073709551615 z) as [H|H]; [|reflexivity].
    destruct (Z.ltb_spec 18446744073709551615 (10 * z + (zb b - 48))); [reflexivity|lia].
Qed.
Lemma refused_junk ds z b more : digits_denote ds z -> ~ a_digit b ->
  (2 ^ 64 <= z)%Z /\ int_refused 0 (ds ++ b :: more) = out_of_range \/ (z < 2 ^ 64)%Z /\ int_refused 0 (ds ++ b :: more) = bad_syntax.
Proof.
  intros Hd Hb. rewrite (refused_prefix ds z Hd). change (2 ^ 64)%Z with 18446744073709551616%Z. destruct (Z.ltb_spec 18446744073709551615 z); [left; split; [lia|reflexivity]|right; split; [lia|]].
  cbn [int_refused]. replace (is_digit_b b) with false; [reflexivity|]. symmetry. apply not_true_is_false. intros E. apply Hb. unfold is_digit_b, is_digit in E. apply andb_prop in E as [E1 E2]. apply Z.leb_le in E1, E2. split; assumption.
Qed.
Lemma digits_head ds z : digits_denote ds z -> exists c l, ds = c :: l /\ a_digit c.
Proof. induction 1 as [b Hb|ds z b _ (c & l & -> & Hc) _]; [exists b, []; auto|exists c, (l ++ [b]); auto]. Qed.
Lemma int_bad t : tkind t = KInt -> bad_number (number_error (B "Atoi") (tlit t)) t.
Proof.
  intros Hk. eexists _, _, _. split; [reflexivity|]. split; [apply spelt_ok|]. split; [apply int_reason|]. left. split; [exact Hk|]. split; [reflexivity|]. split.
  2: { intros sign ds z b more [-> | ->] E Hd Hb; rewrite E.
       - destruct (digits_head ds z Hd) as (c & l & Ed & Hc). match goal with |- context [int_refused 0 ?m] => assert (M : m = ds ++ b :: more) end.
         { rewrite Ed. cbn [app]. destruct (Ascii.eqb_spec c "-") as [->|_]; [exfalso; destruct Hc as [Hc _]; vm_compute in Hc; apply Hc; reflexivity|reflexivity]. }
         rewrite M. exact (refused_junk ds z b more Hd Hb).
       - exact (refused_junk ds z b more Hd Hb). }
  intros [H|(l & E & H)].
  - split; [apply shown_ascii, digit_ascii, H|]. destruct (tlit t) as [|b l]; [reflexivity|]. inversion H as [|? ? Hb Hl]; subst. cbn [beqb].
    destruct (Ascii.eqb_spec b "-") as [->|_]; [exfalso; destruct Hb as [Hb _]; vm_compute in Hb; apply Hb; reflexivity|]. apply (refused_digits (b :: l)). constructor; assumption.
  - rewrite E. split; [apply shown_ascii; constructor; [vm_compute; split; [discriminate|reflexivity]|apply digit_ascii, H]|]. apply refused_digits, H.
Qed.
Lemma float_bad t : tkind t = KFloat -> bad_number (number_error (B "ParseFloat") (tlit t)) t.
Proof.
  intros Hk. eexists _, _, _. split; [reflexivity|]. split; [apply spelt_ok|]. split; [change (beqb (B "ParseFloat") (B "Atoi")) with false; cbv iota; destruct (forallb is_float_byte (tlit t)); [left; reflexivity|right; left; reflexivity]|]. right. split; [exact Hk|]. split; [reflexivity|]. intros H. split.
  - apply shown_ascii. eapply Forall_impl; [|exact H]. intros b [Hb|Hb]; [unfold a_digit in Hb; lia|]. cbn in Hb. destruct Hb as [<-|[<-|[<-|[<-|[<-|[]]]]]]; vm_compute; split; first [discriminate|reflexivity].
  - change (beqb (B "ParseFloat") (B "Atoi")) with false. cbv iota. replace (forallb is_float_byte (tlit t)) with true; [reflexivity|]. symmetry. apply forallb_forall. intros b Hin. pose proof (proj1 (Forall_forall _ _) H b Hin) as H2. unfold is_float_byte. destruct H2 as [Hb|Hb].
    + replace (is_digit_b b) with true; [reflexivity|]. unfold is_digit_b, is_digit, a_digit in *. symmetry. apply andb_true_intro. split; apply Z.leb_le; lia.
    + apply orb_true_iff. right. cbn in Hb. destruct Hb as [<-|[<-|[<-|[<-|[<-|[]]]]]]; vm_compute; reflexivity.
Qed.
Lemma unexpected_quotes t ws : quotes (unexpected t ws) t.
Proof. unfold quotes, unexpected. eexists. repeat rewrite <- app_assoc. reflexivity. Qed.

Lemma fuel_up fok c m ts : (List.length ts <= m)%nat ->
  parse_loop fok (List.length ts) (List.length ts) c ts <> PCrash OutOfFuel -> parse_loop fok (List.length ts) (List.length ts) c ts <> PCrash Over ->
  parse_loop fok m m c ts = parse_loop fok (List.length ts) (List.length ts) c ts.
Proof.
  intros Hm H1 H2. destruct ts as [|x l] eqn:Ets; [exfalso; apply H1; reflexivity|]. rewrite <- Ets in *. assert (Hne : ts <> []) by (rewrite Ets; discriminate). clear x l Ets.
  destruct (exists_last Hne) as (q & h & E). pose proof (loc_parse_loop h [] [] fok (List.length ts) m Hm (List.length ts) m [] c Hm ts Hne) as H.
  destruct (parse_loop fok (List.length ts) (List.length ts) c ts) as [a s|e s|[]]; try congruence.
  - destruct H as (p & Ep & Hs & H). destruct (last_T h [] p s q ltac:(congruence) Hs eq_refl) as (q1 & E1). specialize (H q q1 E E1). congruence.
  - destruct H as (p & Ep & Hs & _ & H). destruct (last_T h [] p s q ltac:(congruence) Hs eq_refl) as (q1 & E1). specialize (H q q1 E E1). congruence.
  - exact (H q E eq_refl eq_refl).
Qed.
Lemma parse_loop_returns fok i ts : tokens i ts -> let r := parse_loop fok (List.length ts) (List.length ts) (mkC 0 0 0 0 0 0 []) ts in r <> PCrash OutOfFuel /\ r <> PCrash Over.
Proof.
  intros Ht r. pose proof (C10_parse_terminates fok i) as H. rewrite (parse_eq fok i ts Ht) in H. unfold parse_tokens, pbind in H. fold r in H.
  split; intros E; rewrite E in H; apply H; reflexivity.
Qed.

Theorem C46_error_is_final : forall fok i ts msg, tokens i ts -> parse fok i = Error msg ->
  exists pre t post, ts = pre ++ t :: post /\ about msg pre t /\
    forall i' post', tokens i' (pre ++ t :: post') -> parse fok i' = Error msg.
Proof.
  intros fok i ts msg Ht Hp. destruct (parse_loop_returns fok i ts Ht) as [Hr1 Hr2].
  assert (Hts : ts <> []). { destruct (tokens_wf i) as (ts0 & Ht0 & Hw). rewrite (tokens_fun _ _ _ Ht Ht0). intros ->. destruct (wf_cons _ Hw) as (? & ? & ?). discriminate. }
  rewrite (parse_eq fok i ts Ht) in Hp. unfold parse_tokens, pbind in Hp.
  destruct (parse_loop fok (List.length ts) (List.length ts) (mkC 0 0 0 0 0 0 []) ts) as [x s|e s|c] eqn:E; [discriminate| |destruct c; discriminate].
  injection Hp as ->.
  pose proof (loc_parse_loop (hd (mkTok KEOF [] 0 0) s) (tl s) (tl s) fok (List.length ts) (List.length ts) (le_n _) (List.length ts) (List.length ts) [] (mkC 0 0 0 0 0 0 []) (le_n _) ts Hts) as H.
  rewrite E in H. destruct H as (pre & Ep & Hs & Hb & _). destruct s as [|t post]; [congruence|]. exists pre, t, post. split; [exact Ep|]. split.
  - cbn [app] in Hb. destruct Hb as [(t' & s' & Es & [(ws & ->)| -> ])|(p' & u & -> & Hu)].
    + injection Es as <- _. left. apply unexpected_quotes.
    + right. left. reflexivity.
    + right. right. exists p', u. split; [reflexivity|]. destruct Hu as [(ws & ->)|[(Hk & ->)|(Hk & ->)]]; [left; apply unexpected_quotes| |]; right; [apply int_bad, Hk|apply float_bad, Hk].
  - intros i' post' Ht'. set (ts' := pre ++ t :: post') in *. destruct (parse_loop_returns fok i' ts' Ht') as [Hr1' Hr2'].
    rewrite (parse_eq fok i' ts' Ht'). unfold parse_tokens, pbind.
    set (m := Nat.max (List.length ts) (List.length ts')). rewrite <- (fuel_up fok _ m ts' ltac:(lia) Hr1' Hr2').
    rewrite <- (fuel_up fok _ m ts) in E by (try lia; congruence).
    pose proof (loc_parse_loop t post post' fok m m (le_n _) m m [] (mkC 0 0 0 0 0 0 []) (le_n _) ts Hts) as H. rewrite E in H. destruct H as (_ & _ & _ & _ & H).
    unfold ts'. rewrite (H pre [] Ep eq_refl). reflexivity.
Qed.
Print Assumptions C46_error_is_final.

(** So no document begins with what was read: no continuation at all makes the prefix acceptable. *)
Theorem C46_prefix_is_hopeless : forall fok i ts msg, tokens i ts -> parse fok i = Error msg ->
  exists pre t post, ts = pre ++ t :: post /\ about msg pre t /\
    forall i' post' lv ds, tokens i' (pre ++ t :: post') -> lv = June2018 \/ lv = Lenient -> ~ g_document fok lv (pre ++ t :: post') ds.
Proof.
  intros fok i ts msg Ht Hp. destruct (C46_error_is_final fok i ts msg Ht Hp) as (pre & t & post & E & Ha & H).
  exists pre, t, post. split; [exact E|]. split; [exact Ha|]. intros i' post' lv ds Ht' Hlv Hg. destruct (C12_complete fok i' _ lv ds Ht' Hlv Hg) as (d & Hd & _).
  rewrite (H i' post' Ht') in Hd. discriminate.
Qed.
Print Assumptions C46_prefix_is_hopeless.

(** The hypotheses are met; the message quotes the token "}" of line 2, and any text after that token leaves it as it is. *)
Definition nl : bytes := [bz 10].
Example C46_nonvacuous : exists ts, tokens (B "type A {" ++ nl ++ B " f } {") ts /\
  parse anyfloat (B "type A {" ++ nl ++ B " f } {") = Error (B "parser error: unexpected token found at line: 2, column: 4. Found: Punctuator '}'. Wanted: Punctuator ':'.") /\
  parse anyfloat (B "type A {" ++ nl ++ B " f } @#") = Error (B "parser error: unexpected token found at line: 2, column: 4. Found: Punctuator '}'. Wanted: Punctuator ':'.").
Proof. eexists. split; [eexists; vm_compute; reflexivity|]. split; vm_compute; reflexivity. Qed.
(** The other shapes of [about]: no position at all; a literal; a token already read. *)
Example C46_shapes : parse anyfloat (B "{ a(b: ) }") = Error (B "TODO: see `parseDefinition`") /\
  parse anyfloat (B "{ a(b: 99999999999999999999) }") = Error (B "strconv.Atoi: parsing ""99999999999999999999"": value out of range") /\
  parse anyfloat (B "{ a(b: 12" ++ [bz 0] ++ B ") }") = Error (B "strconv.Atoi: parsing ""12\x00"": invalid syntax") /\
  parse anyfloat (B "{ a(b: -18446744073709551616" ++ [bz 0] ++ B ") }") = Error (B "strconv.Atoi: parsing ""-18446744073709551616\x00"": value out of range") /\
  parse anyfloat (B "{ a(b: -18446744073709551615" ++ [bz 0] ++ B ") }") = Error (B "strconv.Atoi: parsing ""-18446744073709551615\x00"": invalid syntax") /\
  parse (fun l => negb (beqb l (B "-1e999"))) (B "{ a(b: -1e999) }") = Error (B "strconv.ParseFloat: parsing ""-1e999"": value out of range") /\
  exists w, parse anyfloat (B "enum E { A true B }") = Error (B "parser error: unexpected token found at line: 1, column: 12. Found: Name 'true'." ++ w).
Proof. do 6 (split; [vm_compute; reflexivity|]). eexists. vm_compute. reflexivity. Qed.
