(** * DumpWords: the tokens the dumper prints, one by one (for the proof of C15). *)
From Verif Require Import Base Utf8 Utf8Proofs Lexer LexSpec LexAgree LexMain LexProps PropLex.
From Verif Require Import AST Grammar Json PropErrors Dumper DumpSpec DumpText.
Local Open Scope Z_scope.

Definition ascii_text (s : bytes) : Prop := Forall (fun b => zb b < 128) s.
Lemma ascii_utf8s s : ascii_text s -> utf8s (map zb s) = s.
Proof.
  induction 1 as [|b s Hb H IH]; [reflexivity|]. cbn [map]. rewrite utf8s_cons, IH, utf8_1 by (pose proof (zb_range b); lia).
  cbn [app]. rewrite bz_zb. reflexivity.
Qed.
Lemma not_in_contains p cs c : In c p -> ~ In c cs -> ~ contains p cs.
Proof. intros Hp Hc (a & b & ->). apply Hc, in_or_app. right. apply in_or_app. auto. Qed.
Lemma delim_cases c : delim c -> In c [32; 10; 44; 33; 36; 38; 40; 41; 58; 61; 64; 91; 93; 123; 124; 125].
Proof. unfold delim, punctuator. cbn. lia. Qed.
Ltac dc := let c := fresh in let Hc := fresh in intros c Hc; apply delim_cases in Hc; cbn [In] in Hc; unfold name_char, letter, digit, exp_mark; lia.

(** ** Names *)
Definition is_name (n : bytes) : Prop := exists c w, n = utf8s (c :: w) /\ letter c /\ Forall name_char w.
Lemma plain_chars w : Forall (fun c => 33 <= c < 128 /\ c <> 92) w -> clean w /\ Forall okc w /\ ~ contains bad w.
Proof.
  intros H. split; [|split].
  - eapply Forall_impl; [|exact H]. cbn. unfold scalar. lia.
  - eapply Forall_impl; [|exact H]. cbn. unfold okc. lia.
  - apply (not_in_contains _ _ 92); [left; reflexivity|]. intros Hi. rewrite Forall_forall in H. specialize (H _ Hi). lia.
Qed.
Lemma name_word n : is_name n -> exists w, n = utf8s w /\ word KName w n.
Proof.
  intros (c & w & -> & Hc & Hw). exists (c :: w). split; [reflexivity|]. exists name_char. split; [constructor; assumption|]. split; [dc|].
  apply plain_chars. constructor; [unfold letter in Hc; lia|]. eapply Forall_impl; [|exact Hw]. unfold name_char, letter, digit. lia.
Qed.

(** ** Numbers *)
Lemma digits_chars w : Forall digit w -> Forall (fun c => 33 <= c < 128 /\ c <> 92) w.
Proof. apply Forall_impl. unfold digit. lia. Qed.
Lemma natural_digits u : natural_part u -> Forall digit u.
Proof. intros [|d ds Hd Hds]; [repeat constructor; unfold digit; lia|constructor; [unfold digit; lia|exact Hds]]. Qed.
Lemma integer_chars w : integer_part w -> Forall (fun c => 33 <= c < 128 /\ c <> 92) w.
Proof.
  intros [H|(u & -> & H)]; [apply digits_chars, natural_digits, H|].
  constructor; [lia|]. apply digits_chars, natural_digits, H.
Qed.
Definition is_float (lit : bytes) : Prop := exists w, lit = utf8s w /\ float_text w.
Lemma frac_chars f : fractional_part f -> Forall (fun c => 33 <= c < 128 /\ c <> 92) f.
Proof. intros (ds & -> & _ & H). constructor; [lia|apply digits_chars, H]. Qed.
Lemma exp_chars e : exponent_part e -> Forall (fun c => 33 <= c < 128 /\ c <> 92) e.
Proof.
  intros (x & sg & ds & -> & Hx & Hs & _ & H). constructor; [lia|]. apply Forall_app. split; [|apply digits_chars, H].
  destruct Hs as [->|[->| ->]]; repeat constructor; lia.
Qed.
Lemma float_word lit : is_float lit -> exists w, lit = utf8s w /\ word KFloat w lit.
Proof.
  intros (w & -> & H). exists w. split; [reflexivity|]. destruct H as [(i & f & -> & Hi & Hf)|[(i & e & -> & Hi & He)|(i & f & e & -> & Hi & Hf & He)]].
  - eexists. split; [apply lx_float_frac; assumption|]. split; [dc|]. apply plain_chars, Forall_app; auto using integer_chars, frac_chars.
  - eexists. split; [apply lx_float_exp; assumption|]. split; [dc|]. apply plain_chars, Forall_app; auto using integer_chars, exp_chars.
  - eexists. split; [apply lx_float_both; assumption|]. split; [dc|]. apply plain_chars. rewrite !Forall_app; auto using integer_chars, frac_chars, exp_chars.
Qed.

Lemma dec_denotes ds : ds <> [] -> Forall (fun d => 48 <= zb d <= 57) ds -> digits_denote ds (dec_value ds).
Proof.
  induction ds as [|d ds IH] using rev_ind; [congruence|]. intros _ H. apply Forall_app in H as [H1 H2]. apply Forall_inv in H2.
  unfold dec_value. rewrite fold_left_app. cbn [fold_left]. destruct ds as [|d0 ds].
  - cbn [fold_left app]. replace (10 * 0 + (zb d - 48)) with (zb d - 48) by lia. apply dd_one. exact H2.
  - apply dd_snoc; [|exact H2]. apply IH; [discriminate|exact H1].
Qed.
Lemma natural_of ds : plain_int ds = true -> Forall (fun d => 48 <= zb d <= 57) ds -> natural_part (map zb ds).
Proof.
  intros Hp H. destruct ds as [|d ds]; [discriminate|]. inversion H as [|? ? H1 H2]; subst. cbn [map].
  destruct (Z.eq_dec (zb d) 48) as [E|E].
  - destruct ds as [|d' ds]; [rewrite E; constructor|]. cbn in Hp. rewrite E in Hp. discriminate.
  - apply np_nonzero; [lia|]. apply Forall_forall. intros x Hx. apply in_map_iff in Hx as (y & <- & Hy). rewrite Forall_forall in H2. exact (H2 y Hy).
Qed.
Lemma int_word z : exists w, itoa z = utf8s w /\ word KInt w (itoa z) /\ int_denotes Lenient (itoa z) z.
Proof.
  assert (D : forall n, exists u, itoaN n = utf8s u /\ u = map zb (itoaN n) /\ natural_part u /\ digits_denote (itoaN n) (Z.of_N n)).
  { intros n. destruct (itoaN_spec n) as (E & F & Hp & d & ds & Ed). exists (map zb (itoaN n)). split.
    - symmetry. apply ascii_utf8s. eapply Forall_impl; [|exact F]. cbn. lia.
    - split; [reflexivity|]. split; [apply natural_of; assumption|]. rewrite <- E. apply dec_denotes; [rewrite Ed; discriminate|exact F]. }
  assert (Wd : forall w, integer_part w -> word KInt w (utf8s w)).
  { intros w Hw. eexists. split; [apply lx_int, Hw|]. split; [dc|]. apply plain_chars, integer_chars, Hw. }
  unfold itoa. destruct (Z.ltb_spec z 0) as [L|L].
  - destruct (D (Z.to_N (- z))) as (u & E & _ & Hn & Hd). exists (45 :: u).
    assert (E' : B "-" ++ itoaN (Z.to_N (- z)) = utf8s (45 :: u)) by (rewrite E; reflexivity).
    split; [exact E'|]. split; [rewrite E'; apply Wd; right; eauto|]. replace z with (- Z.of_N (Z.to_N (- z))) at 2 by lia. apply id_neg. exact Hd.
  - destruct (D (Z.to_N z)) as (u & E & _ & Hn & Hd). exists u. split; [exact E|]. split; [rewrite E; apply Wd; left; exact Hn|].
    replace z with (Z.of_N (Z.to_N z)) at 2 by lia. apply id_pos. exact Hd.
Qed.

(** ** Quoted strings *)
Definition nib (n : Z) : Z := if n <? 10 then 48 + n else 87 + n.
Definition esc_cp (c : Z) : list Z :=
  if (128 <=? c) && (c <=? 65535) then [92; 117; nib (c / 4096); nib (c / 256 mod 16); nib (c / 16 mod 16); nib (c mod 16)]
  else if c =? 34 then [92; 34] else if c =? 92 then [92; 92] else if c =? 47 then [92; 47] else if c =? 8 then [92; 98]
  else if c =? 12 then [92; 102] else if c =? 9 then [92; 116] else [c].
Lemma nib_hex n : 0 <= n < 16 -> hexdigit (nib n) n /\ 48 <= nib n < 103.
Proof.
  intros H. unfold nib. destruct (Z.ltb_spec n 10).
  - split; [|lia]. replace n with ((48 + n) - 48) at 2 by lia. constructor. lia.
  - split; [|lia]. replace n with ((87 + n) - 87) at 2 by lia. apply hex_lower. lia.
Qed.
Lemma utf8s_ascii w : Forall (fun c => 0 <= c < 128) w -> utf8s w = map bz w.
Proof. induction 1 as [|c w H _ IH]; [reflexivity|]. rewrite utf8s_cons, IH, utf8_1 by lia. reflexivity. Qed.
Lemma hex_of_S f n acc : hex_of (S f) n acc = if n <? 16 then hexchar (n mod 16) :: acc else hex_of f (n / 16) (hexchar (n mod 16) :: acc).
Proof. reflexivity. Qed.
Lemma escape_rune_cp c : scalar c -> escape_rune c = utf8s (esc_cp c).
Proof.
  intros Hs. unfold escape_rune, esc_cp. destruct ((128 <=? c) && (c <=? 65535)) eqn:R.
  - assert (Hc : 128 <= c <= 65535) by lia. clear R.
    assert (N1 : 0 <= c / 4096 < 16) by lia. assert (N2 : 0 <= c / 256 mod 16 < 16) by (apply Z.mod_pos_bound; lia).
    assert (N3 : 0 <= c / 16 mod 16 < 16) by (apply Z.mod_pos_bound; lia). assert (N4 : 0 <= c mod 16 < 16) by (apply Z.mod_pos_bound; lia).
    rewrite utf8s_ascii. 2:{ pose proof (nib_hex _ N1); pose proof (nib_hex _ N2); pose proof (nib_hex _ N3); pose proof (nib_hex _ N4). repeat constructor; lia. }
    cbn [map]. change (bz 92) with "\"%char. change (bz 117) with "u"%char. change (B "\u") with ["\"%char; "u"%char]. cbn [app]. f_equal. f_equal.
    assert (E0 : bz (nib 0) = "0"%char) by reflexivity.
    unfold hexx. rewrite hex_of_S. replace (c <? 16) with false by lia. rewrite hex_of_S. change hexchar with (fun n => bz (nib n)). cbv beta.
    destruct (Z.ltb_spec (c / 16) 16) as [L|L].
    + replace (c / 4096) with 0 by lia. replace (c / 256) with 0 by lia. change (0 mod 16) with 0. rewrite !E0. cbn [List.length Nat.sub repeats]. rewrite (Z.mod_small (c / 16)) by lia. reflexivity.
    + rewrite hex_of_S. replace (c / 16 / 16) with (c / 256) by (rewrite Z.div_div by lia; reflexivity). destruct (Z.ltb_spec (c / 256) 16) as [L2|L2].
      * replace (c / 4096) with 0 by lia. rewrite E0. cbn [List.length Nat.sub repeats]. reflexivity.
      * rewrite hex_of_S. replace (c / 256 / 16) with (c / 4096) by (rewrite Z.div_div by lia; reflexivity).
        replace (c / 4096 <? 16) with true by lia. cbn [List.length Nat.sub repeats app]. rewrite (Z.mod_small (c / 4096)) by lia. reflexivity.
  - repeat match goal with |- context [Z.eqb c ?k] => destruct (Z.eqb_spec c k) as [->|]; [reflexivity|] end.
    cbn [utf8s flat_map]. rewrite app_nil_r. reflexivity.
Qed.
Lemma escape_loop_text v : scalars v -> forall fuel, (List.length (utf8s v) <= fuel)%nat -> escape_loop fuel (utf8s v) = utf8s (flat_map esc_cp v).
Proof.
  induction 1 as [|c v Hc Hv IH]; intros fuel Hf; [destruct fuel; reflexivity|].
  rewrite utf8s_cons in *. pose proof (utf8_length c) as Hl. rewrite app_length in Hf. destruct fuel as [|fuel]; [lia|].
  cbn [escape_loop]. destruct (utf8 c ++ utf8s v) eqn:E. { apply app_eq_nil in E as [E _]. rewrite E in Hl. cbn in Hl. lia. }
  rewrite <- E, decode_utf8 by exact Hc. cbn [flat_map]. rewrite utf8s_app, escape_rune_cp by exact Hc. f_equal.
  rewrite skipn_app, skipn_all, Nat.sub_diag. cbn [app skipn]. apply IH. lia.
Qed.
Lemma escape_text v : scalars v -> escapeGraphQLString (utf8s v) = utf8s (flat_map esc_cp v).
Proof. intros H. apply escape_loop_text; [exact H|lia]. Qed.

Definition quotable (v : list Z) : Prop := Forall (fun c => scalar c /\ (c = 8 \/ c = 9 \/ c = 12 \/ 32 <= c)) v.
Lemma esc_string_chars v : quotable v -> string_chars (flat_map esc_cp v) v.
Proof.
  induction 1 as [|c v [Hs Hc] _ IH]; [constructor|]. cbn [flat_map]. unfold esc_cp at 1.
  destruct ((128 <=? c) && (c <=? 65535)) eqn:R.
  { assert (Hr : 128 <= c <= 65535) by lia. clear R. cbn [app].
    replace c with (c / 4096 * 4096 + c / 256 mod 16 * 256 + c / 16 mod 16 * 16 + c mod 16) at 5 by lia.
    apply sc_unicode; try apply nib_hex; try (apply Z.mod_pos_bound; lia); [lia|exact IH]. }
  repeat match goal with |- context [Z.eqb c ?k] =>
    destruct (Z.eqb_spec c k) as [->|]; [cbn [app]; apply sc_escape; [unfold escape; cbn; auto 10|exact IH]|] end.
  cbn [app]. apply sc_char; [lia|lia|lia|exact IH].
Qed.
(** no two adjacent quotes inside *)
Fixpoint no_qq (prev : bool) (l : list Z) : bool :=
  match l with [] => true | c :: t => if c =? 34 then negb prev && no_qq true t else no_qq false t end.
Lemma no_qq_contains l : forall p, no_qq p l = true -> ~ contains [34; 34] l.
Proof.
  induction l as [|c l IH]; intros p H Hc. { revert Hc. apply not_contains_nil. discriminate. }
  destruct Hc as (a & b & E). destruct a as [|x a].
  - cbn in E. injection E as -> ->. cbn in H. rewrite andb_false_r in H. discriminate.
  - cbn in E. injection E as -> ->. cbn in H. destruct (x =? 34).
    + apply andb_true_iff in H as [_ H]. apply (IH true H). exists a, b. reflexivity.
    + apply (IH false H). exists a, b. reflexivity.
Qed.
Lemma no_qq_esc v : quotable v -> forall p, (v = [] \/ p = true) -> no_qq p (flat_map esc_cp v) = true.
Proof.
  intros H p Hp. clear Hp. revert p. induction H as [|c v [Hs Hc] _ IH]; intros p; [reflexivity|]. cbn [flat_map]. unfold esc_cp at 1.
  destruct ((128 <=? c) && (c <=? 65535)) eqn:R.
  { assert (Hr : 128 <= c <= 65535) by lia. clear R.
    pose proof (nib_hex (c / 4096) ltac:(lia)) as [_ N1]. pose proof (nib_hex (c / 256 mod 16) ltac:(apply Z.mod_pos_bound; lia)) as [_ N2].
    pose proof (nib_hex (c / 16 mod 16) ltac:(apply Z.mod_pos_bound; lia)) as [_ N3]. pose proof (nib_hex (c mod 16) ltac:(apply Z.mod_pos_bound; lia)) as [_ N4].
    cbn [app no_qq]. repeat match goal with |- context [?x =? 34] => replace (x =? 34) with false by lia end. apply IH. }
  repeat match goal with |- context [Z.eqb c ?k] => destruct (Z.eqb_spec c k) as [->|]; [cbn [app no_qq Z.eqb Pos.eqb negb andb]; apply IH|] end.
  cbn [app no_qq]. replace (c =? 34) with false by lia. apply IH.
Qed.
Lemma contains_snoc p x c : contains (p ++ [c]) (x ++ [c]) -> contains p x.
Proof.
  intros (a & b & E). destruct b as [|b0 b] using rev_ind; [|clear IHb].
  - rewrite app_nil_r, app_assoc in E. apply app_inj_tail in E as [E _]. exists a, []. rewrite app_nil_r. exact E.
  - rewrite !app_assoc in E. apply app_inj_tail in E as [E _]. exists a, ([c] ++ b). rewrite E, <- !app_assoc. reflexivity.
Qed.
Lemma quoted_word v : quotable v -> word KString (34 :: flat_map esc_cp v ++ [34]) (utf8s v).
Proof.
  intros H. assert (Hs : scalars v) by (eapply Forall_impl; [|exact H]; cbn; tauto).
  exists (fun c => flat_map esc_cp v = [] /\ c = 34). split. { rewrite <- scalars_chars by exact Hs. apply lx_string, esc_string_chars, H. }
  split. { intros c Hc [_ ->]. apply delim_cases in Hc. cbn in Hc. lia. }
  assert (F : Forall (fun c => scalar c /\ c <> 0 /\ okc c) (flat_map esc_cp v)).
  { induction H as [|c v [Hsc Hc] _ IH]; [constructor|]. cbn [flat_map]. apply Forall_app. split; [|apply IH; inversion Hs; assumption].
    unfold esc_cp. destruct ((128 <=? c) && (c <=? 65535)) eqn:R.
    { assert (Hr : 128 <= c <= 65535) by lia. clear R.
      pose proof (nib_hex (c / 4096) ltac:(lia)) as [_ N1]. pose proof (nib_hex (c / 256 mod 16) ltac:(apply Z.mod_pos_bound; lia)) as [_ N2].
      pose proof (nib_hex (c / 16 mod 16) ltac:(apply Z.mod_pos_bound; lia)) as [_ N3]. pose proof (nib_hex (c mod 16) ltac:(apply Z.mod_pos_bound; lia)) as [_ N4].
      unfold scalar, okc. repeat apply Forall_cons; try apply Forall_nil; lia. }
    repeat match goal with |- context [Z.eqb c ?k] => destruct (Z.eqb_spec c k) as [->|]; [unfold scalar, okc; repeat apply Forall_cons; try apply Forall_nil; lia|] end.
    unfold okc. constructor; [|constructor]. split; [exact Hsc|lia]. }
  assert (Q34 : scalar 34 /\ 34 <> 0 /\ okc 34) by (unfold scalar, okc; lia).
  assert (F' : Forall (fun c => scalar c /\ c <> 0 /\ okc c) (34 :: flat_map esc_cp v ++ [34])).
  { constructor; [exact Q34|]. apply Forall_app. split; [exact F|]. constructor; [exact Q34|constructor]. }
  split; [eapply Forall_impl; [|exact F']; cbn; tauto|]. split; [eapply Forall_impl; [|exact F']; cbn; tauto|].
  intros Hb. assert (Ht : contains triple (34 :: flat_map esc_cp v ++ [34])).
  { destruct Hb as (a & b & E). exists (a ++ [92; 92]), b. rewrite E. rewrite <- app_assoc. reflexivity. }
  change (34 :: flat_map esc_cp v ++ [34]) with ((34 :: flat_map esc_cp v) ++ [34]) in Ht. change triple with ([34; 34] ++ [34]) in Ht.
  apply contains_snoc in Ht. destruct Ht as (a & b & E). destruct a as [|x a].
  - cbn in E. injection E as E. destruct H as [|c v Hc Hv]; [discriminate|]. 
    assert (Hx : no_qq true (flat_map esc_cp (c :: v)) = true) by (apply no_qq_esc; [constructor; assumption|auto]).
    rewrite E in Hx. discriminate.
  - cbn [app] in E. injection E as _ E. apply (no_qq_contains _ true (no_qq_esc v H true (or_intror eq_refl))). exists a, b. exact E.
Qed.
