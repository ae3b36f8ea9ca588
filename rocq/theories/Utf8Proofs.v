(** * Utf8Proofs: the lexer's encoder is UTF-8; decoding inverts it. *)
From Verif Require Import Base Utf8.
From Coq Require Import ZifyBool ZifyNat ZifyN.
Local Open Scope Z_scope.
Ltac Zify.zify_post_hook ::= Z.div_mod_to_equations.

Lemma scalarb_spec c : scalarb c = true <-> scalar c.
Proof. unfold scalarb, scalar. lia. Qed.

Lemma zb_bz_mod z : zb (bz z) = z mod 256.
Proof.
  unfold bz, zb. rewrite N_ascii_embedding; [|lia]. lia.
Qed.

Lemma bz_mod z : bz (z mod 256) = bz z.
Proof. unfold bz. rewrite Z.mod_mod by lia. reflexivity. Qed.

(** A property of 0..n-1 decided by computation. *)
Lemma sweep (P : Z -> bool) (n : nat) :
  forallb P (map Z.of_nat (seq 0 n)) = true -> forall z, 0 <= z < Z.of_nat n -> P z = true.
Proof.
  intros H z Hz. rewrite forallb_forall in H. apply H.
  apply in_map_iff. exists (Z.to_nat z). split; [lia|]. apply in_seq. lia.
Qed.

Lemma lor_128 m : 0 <= m < 64 -> Z.lor 128 m = 128 + m.
Proof.
  intros H. apply Z.eqb_eq.
  apply (sweep (fun m => Z.lor 128 m =? 128 + m) 64); [vm_compute; reflexivity | lia].
Qed.
Lemma lor_192 m : 0 <= m < 64 -> Z.lor 192 m = 192 + m.
Proof.
  intros H. apply Z.eqb_eq.
  apply (sweep (fun m => Z.lor 192 m =? 192 + m) 64); [vm_compute; reflexivity | lia].
Qed.
Lemma lor_224 m : 0 <= m < 32 -> Z.lor 224 m = 224 + m.
Proof.
  intros H. apply Z.eqb_eq.
  apply (sweep (fun m => Z.lor 224 m =? 224 + m) 32); [vm_compute; reflexivity | lia].
Qed.
Lemma lor_240 m : 0 <= m < 16 -> Z.lor 240 m = 240 + m.
Proof.
  intros H. apply Z.eqb_eq.
  apply (sweep (fun m => Z.lor 240 m =? 240 + m) 16); [vm_compute; reflexivity | lia].
Qed.

Lemma land_63 y : Z.land y 63 = y mod 64.
Proof. change 63 with (Z.ones 6). rewrite Z.land_ones by lia. reflexivity. Qed.

Lemma cont_byte x : bz (Z.lor 128 (Z.land (zb (bz x)) 63)) = bz (128 + x mod 64).
Proof.
  rewrite zb_bz_mod, land_63.
  replace ((x mod 256) mod 64) with (x mod 64) by lia.
  rewrite lor_128 by lia. reflexivity.
Qed.

Lemma shr6 x : Z.shiftr x 6 = x / 64.
Proof. rewrite Z.shiftr_div_pow2 by lia. reflexivity. Qed.
Lemma shr12 x : Z.shiftr x 12 = x / 4096.
Proof. rewrite Z.shiftr_div_pow2 by lia. reflexivity. Qed.
Lemma shr18 x : Z.shiftr x 18 = x / 262144.
Proof. rewrite Z.shiftr_div_pow2 by lia. reflexivity. Qed.

Lemma encode_three c : 2048 <= c < 65536 ->
  [bz (Z.lor 224 (zb (bz (Z.shiftr c 12))));
   bz (Z.lor 128 (Z.land (zb (bz (Z.shiftr c 6))) 63));
   bz (Z.lor 128 (Z.land (zb (bz c)) 63))] = utf8 c.
Proof.
  intros H. rewrite !cont_byte, shr6, shr12, zb_bz_mod.
  rewrite lor_224 by lia. unfold utf8.
  destruct (Z.ltb_spec c 128); [lia|]. destruct (Z.ltb_spec c 2048); [lia|].
  destruct (Z.ltb_spec c 65536); [|lia].
  replace ((c / 4096) mod 256) with (c / 4096) by lia. reflexivity.
Qed.

Lemma encode_rune_utf8 c : scalar c -> encode_rune c = utf8 c.
Proof.
  intros H. unfold encode_rune. cbv zeta.
  assert (Hm : c mod 4294967296 = c) by (unfold scalar in H; apply Z.mod_small; lia).
  rewrite Hm.
  destruct (Z.leb_spec c 127).
  { unfold utf8. destruct (Z.ltb_spec c 128); [reflexivity | lia]. }
  destruct (Z.leb_spec c 2047).
  { unfold utf8. destruct (Z.ltb_spec c 128); [lia|]. destruct (Z.ltb_spec c 2048); [|lia].
    rewrite cont_byte, shr6, zb_bz_mod, lor_192 by lia.
    replace ((c / 64) mod 256) with (c / 64) by lia. reflexivity. }
  destruct ((1114111 <? c) || (55296 <=? c) && (c <=? 57343)) eqn:E; [unfold scalar in H; lia|].
  destruct (Z.leb_spec c 65535).
  { apply encode_three. lia. }
  unfold utf8. destruct (Z.ltb_spec c 128); [lia|]. destruct (Z.ltb_spec c 2048); [lia|].
  destruct (Z.ltb_spec c 65536); [lia|].
  unfold scalar in H.
  rewrite !cont_byte, shr6, shr12, shr18, zb_bz_mod, lor_240 by lia.
  replace ((c / 262144) mod 256) with (c / 262144) by lia. reflexivity.
Qed.

Lemma encode_rune_invalid r : -2147483648 <= r < 2147483648 -> ~ scalar r ->
  encode_rune r = utf8 rune_error.
Proof.
  intros Hr H. unfold encode_rune. cbv zeta. unfold scalar in H.
  destruct (Z.leb_spec (r mod 4294967296) 127); [lia|].
  destruct (Z.leb_spec (r mod 4294967296) 2047); [lia|].
  destruct ((1114111 <? r mod 4294967296) || (55296 <=? r mod 4294967296) && (r mod 4294967296 <=? 57343)) eqn:E;
    [|lia].
  apply encode_three. unfold rune_error. lia.
Qed.

(** ** Shape of an encoding. *)
Lemma utf8_1 c : 0 <= c < 128 -> utf8 c = [bz c].
Proof. intros. unfold utf8. destruct (Z.ltb_spec c 128); [reflexivity|lia]. Qed.

Lemma utf8_length c : (1 <= List.length (utf8 c) <= 4)%nat.
Proof. unfold utf8. destruct (c <? 128), (c <? 2048), (c <? 65536); simpl; lia. Qed.

Lemma utf8_nonempty c : utf8 c <> [].
Proof. pose proof (utf8_length c). destruct (utf8 c); simpl in *; [lia|discriminate]. Qed.

Lemma utf8_length_1 c : scalar c -> List.length (utf8 c) = 1%nat -> 0 <= c < 128.
Proof.
  unfold scalar, utf8. destruct (Z.ltb_spec c 128); [lia|].
  destruct (Z.ltb_spec c 2048); [simpl; lia|]. destruct (Z.ltb_spec c 65536); simpl; lia.
Qed.

(** The first byte of a multi-byte encoding is at least 0x80. *)
Lemma utf8_head c b t : scalar c -> utf8 c = b :: t -> (zb b < 128 <-> c < 128).
Proof.
  intros Hs. unfold scalar in Hs. unfold utf8.
  destruct (Z.ltb_spec c 128).
  { intros E; apply (f_equal (hd zero)) in E; cbn [hd] in E; subst b; rewrite zb_bz by lia; lia. }
  destruct (Z.ltb_spec c 2048).
  { intros E; apply (f_equal (hd zero)) in E; cbn [hd] in E; subst b; rewrite zb_bz by lia; lia. }
  destruct (Z.ltb_spec c 65536).
  { intros E; apply (f_equal (hd zero)) in E; cbn [hd] in E; subst b; rewrite zb_bz by lia; lia. }
  intros E; apply (f_equal (hd zero)) in E; cbn [hd] in E; subst b; rewrite zb_bz by lia; lia.
Qed.

Ltac zcase :=
  match goal with
  | |- context [Z.ltb ?a ?b] => destruct (Z.ltb_spec a b); [|try lia]
  end.

Lemma in_range_true lo hi z : 0 <= z < 256 -> lo <= z <= hi -> in_range lo hi (bz z) = true.
Proof. intros. unfold in_range. rewrite zb_bz by lia. lia. Qed.

Lemma decode2_ok c t : 128 <= c < 2048 ->
  decode2 (192 + c / 64) (bz (128 + c mod 64) :: t) 128 191 = (c, 2%nat).
Proof.
  intros H. unfold decode2. rewrite in_range_true by lia. rewrite zb_bz by lia.
  f_equal. lia.
Qed.

Lemma decode3_ok c lo hi t : 2048 <= c < 65536 -> lo <= 128 + (c / 64) mod 64 <= hi ->
  decode3 (224 + c / 4096) (bz (128 + (c / 64) mod 64) :: bz (128 + c mod 64) :: t) lo hi = (c, 3%nat).
Proof.
  intros H H1. unfold decode3. rewrite !in_range_true by lia. rewrite !zb_bz by lia.
  cbn [andb]. f_equal. lia.
Qed.

Lemma decode4_ok c lo hi t : 65536 <= c < 1114112 -> lo <= 128 + (c / 4096) mod 64 <= hi ->
  decode4 (240 + c / 262144)
    (bz (128 + (c / 4096) mod 64) :: bz (128 + (c / 64) mod 64) :: bz (128 + c mod 64) :: t) lo hi = (c, 4%nat).
Proof.
  intros H H1. unfold decode4. rewrite !in_range_true by lia. rewrite !zb_bz by lia.
  cbn [andb]. f_equal. lia.
Qed.

Lemma decode_utf8 c rest : scalar c -> decode_rune (utf8 c ++ rest) = (c, List.length (utf8 c)).
Proof.
  intros Hs. unfold scalar in Hs. unfold utf8.
  destruct (Z.ltb_spec c 128).
  { cbn [app List.length]. unfold decode_rune. rewrite zb_bz by lia.
    destruct (Z.ltb_spec c 128); [reflexivity|lia]. }
  destruct (Z.ltb_spec c 2048).
  { cbn [app List.length]. unfold decode_rune. rewrite zb_bz by lia.
    destruct (Z.ltb_spec (192 + c / 64) 128); [lia|].
    destruct (Z.ltb_spec (192 + c / 64) 194); [lia|].
    destruct (Z.ltb_spec (192 + c / 64) 224); [|lia].
    apply decode2_ok; lia. }
  destruct (Z.ltb_spec c 65536).
  { cbn [app List.length]. unfold decode_rune. rewrite zb_bz by lia.
    destruct (Z.ltb_spec (224 + c / 4096) 128); [lia|].
    destruct (Z.ltb_spec (224 + c / 4096) 194); [lia|].
    destruct (Z.ltb_spec (224 + c / 4096) 224); [lia|].
    destruct (Z.eqb_spec (224 + c / 4096) 224); [apply decode3_ok; lia|].
    destruct (Z.eqb_spec (224 + c / 4096) 237); [apply decode3_ok; lia|].
    destruct (Z.ltb_spec (224 + c / 4096) 240); [|lia].
    apply decode3_ok; lia. }
  cbn [app List.length]. unfold decode_rune. rewrite zb_bz by lia.
  destruct (Z.ltb_spec (240 + c / 262144) 128); [lia|].
  destruct (Z.ltb_spec (240 + c / 262144) 194); [lia|].
  destruct (Z.ltb_spec (240 + c / 262144) 224); [lia|].
  destruct (Z.eqb_spec (240 + c / 262144) 224); [lia|].
  destruct (Z.eqb_spec (240 + c / 262144) 237); [lia|].
  destruct (Z.ltb_spec (240 + c / 262144) 240); [lia|].
  destruct (Z.eqb_spec (240 + c / 262144) 240); [apply decode4_ok; lia|].
  destruct (Z.ltb_spec (240 + c / 262144) 244); [apply decode4_ok; lia|].
  destruct (Z.eqb_spec (240 + c / 262144) 244); [apply decode4_ok; lia|lia].
Qed.

(** Whatever the bytes, the decoder consumes at least one byte and never more than there are. *)
Lemma decode2_width z t lo hi : (1 <= snd (decode2 z t lo hi) <= S (List.length t))%nat.
Proof. destruct t; simpl; [lia|]. destruct (in_range lo hi b); simpl; lia. Qed.
Lemma decode3_width z t lo hi : (1 <= snd (decode3 z t lo hi) <= S (List.length t))%nat.
Proof.
  destruct t as [|b1 [|b2 t]]; simpl; try lia.
  destruct (in_range lo hi b1 && in_range 128 191 b2); simpl; lia.
Qed.
Lemma decode4_width z t lo hi : (1 <= snd (decode4 z t lo hi) <= S (List.length t))%nat.
Proof.
  destruct t as [|b1 [|b2 [|b3 t]]]; simpl; try lia.
  destruct (in_range lo hi b1 && in_range 128 191 b2 && in_range 128 191 b3); simpl; lia.
Qed.

Lemma decode_width b t : (1 <= snd (decode_rune (b :: t)) <= S (List.length t))%nat.
Proof.
  unfold decode_rune.
  repeat match goal with
  | |- context [if ?c then _ else _] => destruct c
  end; try apply decode2_width; try apply decode3_width; try apply decode4_width; simpl; lia.
Qed.

(** A decoded rune is never NUL unless the byte was, and multi-byte runes are at least 0x80. *)
Lemma in_range_spec lo hi b : in_range lo hi b = true <-> lo <= zb b <= hi.
Proof. unfold in_range. lia. Qed.

Lemma decode_rune_ge b t : 128 <= zb b -> 128 <= fst (decode_rune (b :: t)) /\ scalar (fst (decode_rune (b :: t))).
Proof.
  intros Hb. pose proof (zb_range b) as Hr. unfold decode_rune, rune_error, scalar.
  destruct (Z.ltb_spec (zb b) 128); [lia|].
  destruct (Z.ltb_spec (zb b) 194); [cbn; lia|].
  assert (D2 : forall lo hi, 194 <= zb b < 224 -> 128 <= lo -> hi <= 191 ->
     128 <= fst (decode2 (zb b) t lo hi) < 55296 \/ fst (decode2 (zb b) t lo hi) = 65533).
  { intros lo hi Hx Hlo Hhi. unfold decode2, rune_error. destruct t as [|b1 t]; [cbn; lia|].
    destruct (in_range lo hi b1) eqn:E; [|cbn; lia]. apply in_range_spec in E. cbn [fst]. lia. }
  assert (D3 : forall lo hi, 224 <= zb b < 240 -> 128 <= lo -> hi <= 191 ->
     (zb b = 224 -> 160 <= lo) -> (zb b = 237 -> hi <= 159) ->
     128 <= fst (decode3 (zb b) t lo hi) /\
     (0 <= fst (decode3 (zb b) t lo hi) < 55296 \/ 57344 <= fst (decode3 (zb b) t lo hi) <= 1114111)).
  { intros lo hi Hx Hlo Hhi Hc0 Hc1. unfold decode3, rune_error. destruct t as [|b1 [|b2 t]]; try (cbn; lia).
    destruct (in_range lo hi b1 && in_range 128 191 b2) eqn:E; [|cbn; lia].
    apply andb_true_iff in E as [E1 E2]. apply in_range_spec in E1, E2. cbn [fst].
    destruct (Z.eq_dec (zb b) 237); lia. }
  assert (D4 : forall lo hi, 240 <= zb b <= 244 -> 128 <= lo -> hi <= 191 ->
     (zb b = 240 -> 144 <= lo) -> (zb b = 244 -> hi <= 143) ->
     57344 <= fst (decode4 (zb b) t lo hi) <= 1114111).
  { intros lo hi Hx Hlo Hhi Hc0 Hc1. unfold decode4, rune_error. destruct t as [|b1 [|b2 [|b3 t]]]; try (cbn; lia).
    destruct (in_range lo hi b1 && in_range 128 191 b2 && in_range 128 191 b3) eqn:E; [|cbn; lia].
    apply andb_true_iff in E as [E E3]. apply andb_true_iff in E as [E1 E2]. apply in_range_spec in E1, E2, E3.
    cbn [fst]. destruct (Z.eq_dec (zb b) 240), (Z.eq_dec (zb b) 244); lia. }
  destruct (Z.ltb_spec (zb b) 224). { specialize (D2 128 191). lia. }
  destruct (Z.eqb_spec (zb b) 224). { specialize (D3 160 191). lia. }
  destruct (Z.eqb_spec (zb b) 237). { specialize (D3 128 159). lia. }
  destruct (Z.ltb_spec (zb b) 240). { specialize (D3 128 191). lia. }
  destruct (Z.eqb_spec (zb b) 240). { specialize (D4 144 191). lia. }
  destruct (Z.ltb_spec (zb b) 244). { specialize (D4 128 191). lia. }
  destruct (Z.eqb_spec (zb b) 244). { specialize (D4 128 143). lia. }
  cbn. lia.
Qed.

Lemma utf8s_app a b : utf8s (a ++ b) = utf8s a ++ utf8s b.
Proof. apply flat_map_app. Qed.

Lemma utf8s_cons a b : utf8s (a :: b) = utf8 a ++ utf8s b.
Proof. reflexivity. Qed.
