(** * PropErrors: C37, C38 — errors as JSON, sorting errors. *)
From Coq Require Import Permutation Sorted NArith Nnat.
From Verif Require Import Base Utf8 Utf8Proofs Context Json Errors LexSpec.

(** ** Specification *)
(** A string that stands for itself between JSON quotes: well-formed UTF-8 without quotation mark, backslash or control character. *)
Definition plain (s : bytes) : Prop := exists cs, s = utf8s cs /\ Forall (fun c => scalar c /\ (32 <= c)%Z /\ c <> 34%Z /\ c <> 92%Z) cs.
Definition fits (z : Z) : Prop := (0 <= z < 2 ^ 63)%Z.
(** the JSON value of an error: a message, the locations if any, the path if any *)
Definition jkey (k : string) (v : json) : bytes * json := (B k, v).
Definition error_value (e : gerror) : json :=
  JObj (jkey "message" (JStr (g_message e)) ::
        match g_locs e with [] => [] | ls => [jkey "locations" (JArr (map (fun l => JObj [jkey "line" (JInt (fst l)); jkey "column" (JInt (snd l))]) ls))] end ++
        match g_path e with [] => [] | ps => [jkey "path" (JArr (map (fun p => match p with PStr s => JStr s | PInt z => JInt z end) ps))] end).
Definition plain_error (e : gerror) : Prop :=
  plain (g_message e) /\ (forall l, In l (g_locs e) -> fits (fst l) /\ fits (snd l)) /\ (forall s, In (PStr s) (g_path e) -> plain s).

(** ** Lemmas *)
Lemma string_rest_eq fuel p acc : p <> [] -> string_rest (S fuel) p acc = let '(z, w) := decode_rune p in
  if (z =? 34)%Z then Some (acc, skipn 1 p) else if (z =? 92)%Z then match Json.escape (skipn 1 p) with Some (s, r) => string_rest fuel r (acc ++ s) | None => None end
  else if (z <? 32)%Z || (z =? 65533)%Z && (w =? 1)%nat then None else string_rest fuel (skipn w p) (acc ++ firstn w p).
Proof. intros H. destruct p as [|b p]; [congruence|reflexivity]. Qed.
Lemma str_rest cs : Forall (fun c => scalar c /\ (32 <= c)%Z /\ c <> 34%Z /\ c <> 92%Z) cs -> forall fuel r acc, List.length (utf8s cs) < fuel ->
  string_rest fuel (utf8s cs ++ bz 34 :: r) acc = Some (acc ++ utf8s cs, r).
Proof.
  induction 1 as [|c cs (Sc & H1 & H2 & H3) _ IH]; intros fuel r acc Hf.
  - destruct fuel as [|fuel]; [lia|]. cbn [utf8s flat_map app]. rewrite app_nil_r. reflexivity.
  - destruct fuel as [|fuel]; [lia|]. change (utf8s (c :: cs)) with (utf8 c ++ utf8s cs) in *. rewrite app_length in Hf. pose proof (utf8_length c) as L. rewrite <- app_assoc.
    assert (D : decode_rune (utf8 c ++ utf8s cs ++ bz 34 :: r) = (c, List.length (utf8 c))) by (apply decode_utf8; exact Sc).
    rewrite string_rest_eq by (intros Ep; apply (f_equal (@List.length _)) in Ep; rewrite app_length in Ep; cbn in Ep; lia). rewrite D. replace (c =? 34)%Z with false by lia. replace (c =? 92)%Z with false by lia. replace (c <? 32)%Z with false by lia.
    assert (X : (c =? 65533)%Z && (List.length (utf8 c) =? 1)%nat = false).
    { destruct (Nat.eqb_spec (List.length (utf8 c)) 1) as [Hl|Hl]; [|apply andb_false_r]. apply utf8_length_1 in Hl; [|exact Sc]. replace (c =? 65533)%Z with false by lia. reflexivity. }
    rewrite X. cbn [orb]. rewrite skipn_app, firstn_app, skipn_all, firstn_all, Nat.sub_diag. cbn [skipn firstn app]. rewrite app_nil_r, IH by lia. rewrite <- app_assoc. reflexivity.
Qed.
Lemma str_lit s r : plain s -> string_lit (quote ++ s ++ quote ++ r) = Some (s, r).
Proof.
  intros (cs & -> & H). unfold quote. cbn [app]. unfold string_lit. change (zb (bz 34) =? 34)%Z with true. cbn iota. rewrite str_rest; [reflexivity|exact H|]. cbn [List.length]. rewrite app_length. cbn. lia.
Qed.
Lemma plain_B s : (fix go (l : bytes) := match l with [] => true | c :: l => ((32 <=? zb c) && (zb c <? 128) && negb (zb c =? 34) && negb (zb c =? 92))%Z && go l end) (B s) = true -> plain (B s).
Proof.
  generalize (B s). clear s. intros l H. exists (map zb l). induction l as [|c l IH]; [split; [reflexivity|constructor]|]. rewrite !andb_true_iff in H. destruct H as ((((H1 & H2) & H3) & H4) & H5).
  destruct (IH H5) as [E F]. split; [|constructor; [unfold scalar; lia|exact F]]. cbn [map]. change (utf8s (zb c :: map zb l)) with (utf8 (zb c) ++ utf8s (map zb l)). rewrite <- E. unfold utf8.
  replace (zb c <? 128)%Z with true by lia. cbn [app]. rewrite bz_zb. reflexivity.
Qed.
(** numbers *)
Definition horner (ds : bytes) (a : Z) : Z := fold_left (fun a d => 10 * a + (zb d - 48))%Z ds a.
Lemma digit_char n : (n < 10)%N -> zb (ascii_of_N (48 + n)) = (48 + Z.of_N n)%Z.
Proof. intros H. unfold zb. rewrite N_ascii_embedding by lia. lia. Qed.
Lemma digits_of_spec f : forall n acc, (n < 2 ^ N.of_nat f)%N ->
  horner (digits_of f n acc) 0 = horner acc (Z.of_N n) /\ (forall Q : byte -> Prop, (forall d, (48 <= zb d <= 57)%Z -> Q d) -> Forall Q acc -> Forall Q (digits_of f n acc)) /\
  (f <> 0 -> exists d ds, digits_of f n acc = d :: ds /\ ((0 < n)%N -> zb d <> 48%Z) /\ (n = 0%N -> ds = acc)) /\ List.length acc <= List.length (digits_of f n acc).
Proof.
  induction f as [|f IH]; intros n acc H.
  - cbn in H. assert (n = 0%N) as -> by lia. cbn [digits_of]. split; [reflexivity|]. split; [auto|]. split; [congruence|lia].
  - cbn [digits_of]. assert (Hm : (n mod 10 < 10)%N) by (apply N.mod_lt; lia). destruct (N.ltb_spec n 10) as [L|L].
    + rewrite N.mod_small by lia. pose proof (digit_char n L) as D. split; [unfold horner; cbn [fold_left]; rewrite D; f_equal; lia|]. split; [intros Q HQ F; constructor; [apply HQ; lia|exact F]|].
      split; [|cbn; lia]. intros _. exists (ascii_of_N (48 + n)), acc. split; [reflexivity|]. split; [lia|reflexivity].
    + assert (H' : (n / 10 < 2 ^ N.of_nat f)%N). { rewrite Nat2N.inj_succ, N.pow_succ_r' in H. apply N.div_lt_upper_bound; lia. }
      pose proof (digit_char _ Hm) as D. destruct (IH (n / 10)%N (ascii_of_N (48 + n mod 10) :: acc) H') as (E & Fa & Hd & Hl). assert (P : (0 < n / 10)%N) by (apply N.div_str_pos; lia).
      split; [rewrite E; unfold horner; cbn [fold_left]; rewrite D; f_equal; pose proof (N.div_mod n 10 ltac:(lia)); lia|]. split; [intros Q HQ F; apply Fa; [exact HQ|]; constructor; [apply HQ; lia|exact F]|].
      split; [|cbn [List.length] in Hl; lia]. intros _. destruct f as [|f]; [change (2 ^ N.of_nat 0)%N with 1%N in H'; lia|]. destruct (Hd ltac:(lia)) as (d & ds & E1 & E2 & E3). exists d, ds. split; [exact E1|]. split; [intros _; apply E2; exact P|lia].
Qed.
Lemma itoaN_spec n : dec_value (itoaN n) = Z.of_N n /\ Forall (fun d => (48 <= zb d <= 57)%Z) (itoaN n) /\ plain_int (itoaN n) = true /\ exists d ds, itoaN n = d :: ds.
Proof.
  unfold itoaN. set (f := S (N.to_nat (N.log2 n))). assert (H : (n < 2 ^ N.of_nat f)%N).
  { unfold f. rewrite Nat2N.inj_succ, N2Nat.id. destruct n as [|p]; [cbn; lia|]. apply N.log2_spec. lia. }
  destruct (digits_of_spec f n [] H) as (E & Fa & Hd & _). destruct (Hd ltac:(unfold f; lia)) as (d & ds & E1 & E2 & E3). split; [exact E|]. split; [apply Fa; auto|]. split; [|eauto].
  rewrite E1. destruct ds as [|d' ds]; [reflexivity|]. cbn [plain_int]. destruct (N.eq_dec n 0) as [->|Hn]; [specialize (E3 eq_refl); discriminate|]. specialize (E2 ltac:(lia)). lia.
Qed.
Definition stop (r : bytes) : Prop := exists c r', r = c :: r' /\ In (zb c) [44; 93; 125]%Z.
Lemma stop_head r : stop r -> exists c r', r = c :: r' /\ (zb c = 44 \/ zb c = 93 \/ zb c = 125)%Z.
Proof. intros (c & r' & E & [H|[H|[H|[]]]]); exists c, r'; auto. Qed.
Lemma span_all ds r : Forall (fun d => (48 <= zb d <= 57)%Z) ds -> stop r -> span_digits (ds ++ r) = (ds, r).
Proof.
  intros F S. induction F as [|d ds H _ IH].
  - destruct (stop_head r S) as (c & r' & -> & H). cbn. unfold is_digit. replace ((48 <=? zb c) && (zb c <=? 57))%Z with false by lia. reflexivity.
  - cbn. unfold is_digit. replace ((48 <=? zb d) && (zb d <=? 57))%Z with true by lia. rewrite IH. reflexivity.
Qed.
Lemma tail_stop ds r (neg : bool) : stop r -> match fraction r with
    | None => None
    | Some (f, r) => match exponent r with
                     | None => None
                     | Some (e, r) => match f ++ e with
                                      | [] => Some (JInt (if neg then - dec_value ds else dec_value ds)%Z, r)
                                      | t => Some (JReal ((if neg then B "-" else []) ++ ds ++ t), r)
                                      end
                     end
    end = Some (JInt (if neg then - dec_value ds else dec_value ds)%Z, r).
Proof.
  intros S. destruct (stop_head r S) as (c & r' & -> & H). unfold fraction. replace (zb c =? 46)%Z with false by lia. cbn [exponent]. replace ((zb c =? 101) || (zb c =? 69))%Z with false by lia. reflexivity.
Qed.
Lemma number_itoa z r : stop r -> number (itoa z ++ r) = Some (JInt z, r).
Proof.
  intros S. unfold itoa. destruct (Z.ltb_spec z 0) as [H|H].
  - destruct (itoaN_spec (Z.to_N (- z))) as (V & F & P & _). change (B "-") with [bz 45]. cbn [app]. unfold number. change (zb (bz 45) =? 45)%Z with true. cbn iota. rewrite span_all by assumption. rewrite P, (tail_stop _ _ true) by exact S. rewrite V. do 3 f_equal. lia.
  - destruct (itoaN_spec (Z.to_N z)) as (V & F & P & d & ds & E). pose proof (span_all _ r F S) as Sp. assert (Hd : zb d <> 45%Z) by (rewrite E in F; inversion F; lia). rewrite E in V, P, Sp |- *. cbn [app] in Sp |- *. unfold number. replace (zb d =? 45)%Z with false by lia. rewrite Sp, P, (tail_stop _ _ false) by exact S. rewrite V. do 3 f_equal. lia.
Qed.
Lemma ws_head c r : is_ws c = false -> ws (c :: r) = c :: r. Proof. intros H. cbn [ws]. rewrite H. reflexivity. Qed.
Lemma not_ws c : (33 <= zb c)%Z -> is_ws c = false. Proof. intros H. unfold is_ws. cbn [existsb]. lia. Qed.
(** [t] is the text of [v] before a comma or a closing bracket *)
Definition elem (v : json) (t : bytes) : Prop := forall fuel r, List.length t <= fuel -> stop r -> value fuel (t ++ r) = Some (v, r).
Lemma elem_int z : elem (JInt z) (itoa z).
Proof.
  intros fuel r Hf S. assert (X : exists c t, itoa z = c :: t /\ (zb c = 45 \/ 48 <= zb c <= 57)%Z).
  { unfold itoa. destruct (z <? 0)%Z; [exists (bz 45), (itoaN (Z.to_N (- z))); split; [reflexivity|left; reflexivity]|]. destruct (itoaN_spec (Z.to_N z)) as (_ & F & _ & d & ds & E). rewrite E in *. inversion F; subst. eauto. }
  destruct X as (c & t & E & Hc). destruct fuel as [|fuel]; [rewrite E in Hf; cbn in Hf; lia|]. pose proof (number_itoa z r S) as N. rewrite E in *. cbn [app] in *. cbn [value]. rewrite ws_head by (apply not_ws; lia).
  replace (zb c =? 34)%Z with false by lia. replace (zb c =? 91)%Z with false by lia. replace (zb c =? 123)%Z with false by lia. replace (zb c =? 110)%Z with false by lia. replace (zb c =? 116)%Z with false by lia. replace (zb c =? 102)%Z with false by lia. exact N.
Qed.
Lemma elem_str s : plain s -> elem (JStr s) (quote ++ s ++ quote).
Proof.
  intros P fuel r Hf S. destruct fuel as [|fuel]; [cbn in Hf; lia|]. rewrite <- !app_assoc. pose proof (str_lit s r P) as L. unfold quote at 1. unfold quote at 1 in L. cbn [app] in *. cbn [value]. rewrite ws_head by reflexivity.
  change (zb (bz 34) =? 34)%Z with true. cbn iota. rewrite L. reflexivity.
Qed.
Lemma stop_comma r : stop (B "," ++ r). Proof. exists (bz 44), r. split; [reflexivity|left; reflexivity]. Qed.
Lemma stop_square r : stop (B "]" ++ r). Proof. exists (bz 93), r. split; [reflexivity|right; left; reflexivity]. Qed.
Lemma stop_brace r : stop (B "}" ++ r). Proof. exists (bz 125), r. split; [reflexivity|right; right; left; reflexivity]. Qed.
Lemma items_spec vs : forall ts acc fuel r, Forall2 elem vs ts -> vs <> [] -> List.length (joinb (B ",") ts) < fuel -> items fuel acc (joinb (B ",") ts ++ B "]" ++ r) = Some (JArr (acc ++ vs), r).
Proof.
  induction vs as [|v vs IH]; intros ts acc fuel r H Hn Hf; [congruence|]. inversion H as [|? t ? ts' Ht Hts]; subst. destruct fuel as [|fuel]; [lia|]. cbn [items].
  destruct ts' as [|t' ts'].
  - inversion Hts; subst. cbn [joinb] in *. rewrite Ht by (try lia; apply stop_square). reflexivity.
  - destruct vs as [|v' vs]; [inversion Hts|]. cbn [joinb] in Hf |- *. change (match ts' with [] => t' | _ => t' ++ B "," ++ joinb (B ",") ts' end) with (joinb (B ",") (t' :: ts')) in *. rewrite !app_length in Hf. rewrite <- !app_assoc.
    rewrite Ht by (try lia; apply stop_comma). change (B "," ++ joinb (B ",") (t' :: ts') ++ B "]" ++ r) with (bz 44 :: joinb (B ",") (t' :: ts') ++ B "]" ++ r). rewrite ws_head by reflexivity. change (zb (bz 44) =? 44)%Z with true. cbn iota.
    rewrite IH; [rewrite <- app_assoc; reflexivity|exact Hts|discriminate|change (List.length (B ",")) with 1 in Hf; lia].
Qed.
Lemma elem_head v t : elem v t -> t <> [].
Proof. intros H ->. specialize (H 0 (B "]") (le_n 0) (stop_square [])). discriminate. Qed.
(** an array of at least one element *)
Lemma elem_arr vs ts : Forall2 elem vs ts -> vs <> [] -> (forall t c u, In t ts -> t = c :: u -> zb c <> 93%Z /\ (33 <= zb c)%Z) -> elem (JArr vs) (B "[" ++ joinb (B ",") ts ++ B "]").
Proof.
  intros H Hn Hc fuel r Hf S. rewrite !app_length in Hf. destruct fuel as [|fuel]; [cbn in Hf; lia|]. rewrite <- !app_assoc. change (B "[" ++ joinb (B ",") ts ++ B "]" ++ r) with (bz 91 :: joinb (B ",") ts ++ B "]" ++ r). cbn [value].
  rewrite ws_head by reflexivity. change (zb (bz 91) =? 34)%Z with false. change (zb (bz 91) =? 91)%Z with true. cbn iota.
  assert (X : exists c u, joinb (B ",") ts ++ B "]" ++ r = c :: u /\ zb c <> 93%Z /\ (33 <= zb c)%Z).
  { destruct H as [|v t vs ts Ht _]; [congruence|]. pose proof (elem_head v t Ht) as Hne. destruct t as [|c u]; [congruence|]. destruct (Hc (c :: u) c u (or_introl eq_refl) eq_refl) as [H1 H2]. cbn [joinb]. destruct ts; eexists c, _; (split; [reflexivity|auto]). }
  destruct X as (c & u & E & H1 & H2). rewrite E at 1. rewrite ws_head by (apply not_ws; exact H2). replace (zb c =? 93)%Z with false by lia. apply (items_spec vs ts []); [exact H|exact Hn|change (List.length (B "[")) with 1 in Hf; change (List.length (B "]")) with 1 in Hf; lia].
Qed.
(** members of an object *)
Lemma member_next k v t acc fuel r : plain k -> elem v t -> List.length t <= fuel ->
  members (S fuel) acc ((quote ++ k ++ quote ++ B ":") ++ t ++ B "," ++ r) = members fuel (acc ++ [(k, v)]) r.
Proof.
  intros Pk Ht Hf. cbn [members]. rewrite <- !app_assoc. unfold quote at 1. cbn [app]. rewrite ws_head by reflexivity. change (bz 34 :: k ++ quote ++ B ":" ++ t ++ B "," ++ r) with (quote ++ k ++ quote ++ B ":" ++ t ++ B "," ++ r). rewrite str_lit by exact Pk.
  change (B ":" ++ t ++ B "," ++ r) with (bz 58 :: t ++ B "," ++ r). rewrite ws_head by reflexivity. change (zb (bz 58) =? 58)%Z with true. cbn iota. rewrite Ht by (try lia; apply stop_comma). reflexivity.
Qed.
Lemma member_last k v t acc fuel r : plain k -> elem v t -> List.length t <= fuel ->
  members (S fuel) acc ((quote ++ k ++ quote ++ B ":") ++ t ++ B "}" ++ r) = Some (JObj (acc ++ [(k, v)]), r).
Proof.
  intros Pk Ht Hf. cbn [members]. rewrite <- !app_assoc. unfold quote at 1. cbn [app]. rewrite ws_head by reflexivity. change (bz 34 :: k ++ quote ++ B ":" ++ t ++ B "}" ++ r) with (quote ++ k ++ quote ++ B ":" ++ t ++ B "}" ++ r). rewrite str_lit by exact Pk.
  change (B ":" ++ t ++ B "}" ++ r) with (bz 58 :: t ++ B "}" ++ r). rewrite ws_head by reflexivity. change (zb (bz 58) =? 58)%Z with true. cbn iota. rewrite Ht by (try lia; apply stop_brace). reflexivity.
Qed.
Lemma object_text fuel u : value (S fuel) (B "{" ++ quote ++ u) = members fuel [] (quote ++ u).
Proof. unfold quote. cbn. reflexivity. Qed.
Lemma format_uint_itoa z : fits z -> format_uint z = itoa z.
Proof. intros [H1 H2]. unfold format_uint, itoa. rewrite Z.mod_small by lia. replace (z <? 0)%Z with false by lia. reflexivity. Qed.
Lemma elem_location l : fits (fst l) -> fits (snd l) -> elem (JObj [jkey "line" (JInt (fst l)); jkey "column" (JInt (snd l))]) (location_json l).
Proof.
  intros H1 H2 fuel r Hf S. unfold location_json in *. rewrite !format_uint_itoa in * by assumption. rewrite !app_length in Hf. destruct fuel as [|[|[|fuel]]]; try (cbn in Hf; lia).
  assert (E : (B "{" ++ (quote ++ B "line" ++ quote ++ B ":") ++ itoa (fst l) ++ (B "," ++ quote ++ B "column" ++ quote ++ B ":") ++ itoa (snd l) ++ B "}") ++ r =
    B "{" ++ quote ++ (B "line" ++ quote ++ B ":") ++ itoa (fst l) ++ B "," ++ (quote ++ B "column" ++ quote ++ B ":") ++ itoa (snd l) ++ B "}" ++ r) by (rewrite <- !app_assoc; reflexivity).
  rewrite E, object_text. assert (E1 : quote ++ (B "line" ++ quote ++ B ":") ++ itoa (fst l) ++ B "," ++ (quote ++ B "column" ++ quote ++ B ":") ++ itoa (snd l) ++ B "}" ++ r =
    (quote ++ B "line" ++ quote ++ B ":") ++ itoa (fst l) ++ B "," ++ (quote ++ B "column" ++ quote ++ B ":") ++ itoa (snd l) ++ B "}" ++ r) by (rewrite <- !app_assoc; reflexivity).
  rewrite E1. rewrite member_next with (v := JInt (fst l)); [|apply plain_B; reflexivity|apply elem_int|cbn in Hf; lia]. rewrite member_last with (v := JInt (snd l)); [reflexivity|apply plain_B; reflexivity|apply elem_int|cbn in Hf; lia].
Qed.
Lemma elem_pnode p : (forall s, p = PStr s -> plain s) -> elem (match p with PStr s => JStr s | PInt z => JInt z end) (pnode_json p).
Proof. intros H. destruct p as [s|z]; cbn [pnode_json]; [apply elem_str, H; reflexivity|apply elem_int]. Qed.
Lemma forall2_map {X Y Z'} (R : Y -> Z' -> Prop) (f : X -> Y) (g : X -> Z') l : (forall x, In x l -> R (f x) (g x)) -> Forall2 R (map f l) (map g l).
Proof. induction l as [|x l IH]; intros H; cbn; constructor; [apply H; left; reflexivity|apply IH; intros y Hy; apply H; right; exact Hy]. Qed.
Lemma elem_locs ls : ls <> [] -> (forall l, In l ls -> fits (fst l) /\ fits (snd l)) ->
  elem (JArr (map (fun l => JObj [jkey "line" (JInt (fst l)); jkey "column" (JInt (snd l))]) ls)) (B "[" ++ joinb (B ",") (map location_json ls) ++ B "]").
Proof.
  intros Hn H. apply elem_arr.
  - apply forall2_map. intros l Hl. apply elem_location; apply (H l Hl).
  - destruct ls; [congruence|discriminate].
  - intros t c u Ht E. apply in_map_iff in Ht. destruct Ht as (l & <- & _). unfold location_json in E. cbn in E. injection E as <- _. split; [discriminate|]. vm_compute. discriminate.
Qed.
Lemma elem_path ps : ps <> [] -> (forall s, In (PStr s) ps -> plain s) ->
  elem (JArr (map (fun p => match p with PStr s => JStr s | PInt z => JInt z end) ps)) (B "[" ++ joinb (B ",") (map pnode_json ps) ++ B "]").
Proof.
  intros Hn H. apply elem_arr.
  - apply forall2_map. intros p Hp. apply elem_pnode. intros s ->. apply H, Hp.
  - destruct ps; [congruence|discriminate].
  - intros t c u Ht E. apply in_map_iff in Ht. destruct Ht as (p & E' & _). subst t. destruct p as [s|z]; cbn [pnode_json] in E.
    + unfold quote in E. cbn in E. injection E as <- _. split; [discriminate|]. vm_compute. discriminate.
    + unfold itoa in E. destruct (z <? 0)%Z; [cbn in E; injection E as <- _; split; [discriminate|]; vm_compute; discriminate|]. destruct (itoaN_spec (Z.to_N z)) as (_ & F & _ & d & ds & E1). rewrite E1 in *. injection E as <- _. inversion F; subst. lia.
Qed.
(** the tail of the text after the message *)
Lemma decode_marshal e : plain_error e -> decode (marshal e) = Some (error_value e).
Proof.
  intros (Pm & Hl & Hp). unfold decode. assert (G : value (S (List.length (marshal e))) (marshal e) = Some (error_value e, [])); [|rewrite G; reflexivity].
  destruct e as [m ls ps]. cbn [g_message g_locs g_path] in *. unfold marshal, error_value. cbn [g_message g_locs g_path].
  pose proof (elem_str m Pm) as Em. set (tm := quote ++ m ++ quote) in *.
  assert (Km : plain (B "message")) by (apply plain_B; reflexivity). assert (Kl : plain (B "locations")) by (apply plain_B; reflexivity). assert (Kp : plain (B "path")) by (apply plain_B; reflexivity).
  destruct ls as [|l ls], ps as [|p ps]; cbn [app].
  - set (txt := B "{" ++ _). assert (E : txt = B "{" ++ quote ++ (B "message" ++ quote ++ B ":") ++ tm ++ B "}" ++ []) by (unfold txt, tm; rewrite <- !app_assoc; reflexivity).
    assert (L : List.length tm + 2 <= List.length txt) by (rewrite E, !app_length; cbn; lia). rewrite E at 2. rewrite object_text, app_assoc, <- app_assoc. destruct (List.length txt) as [|n]; [lia|].
    change (quote ++ (B "message" ++ quote ++ B ":") ++ tm ++ B "}" ++ []) with ((quote ++ B "message" ++ quote ++ B ":") ++ tm ++ B "}" ++ []). rewrite member_last with (v := JStr m); [reflexivity|exact Km|exact Em|lia].
  - pose proof (elem_path (p :: ps) ltac:(discriminate) Hp) as Ep. set (tp := B "[" ++ joinb (B ",") (map pnode_json (p :: ps)) ++ B "]") in *. 
    set (txt := B "{" ++ _). assert (E : txt = B "{" ++ quote ++ (B "message" ++ quote ++ B ":") ++ tm ++ B "," ++ (quote ++ B "path" ++ quote ++ B ":") ++ tp ++ B "}" ++ []) by (unfold txt, tm, tp; rewrite <- !app_assoc; reflexivity).
    assert (L : List.length tm + List.length tp + 3 <= List.length txt) by (rewrite E, !app_length; cbn; lia). rewrite E at 2. rewrite object_text. destruct (List.length txt) as [|[|n]]; [lia|lia|].
    change (quote ++ (B "message" ++ quote ++ B ":") ++ tm ++ B "," ++ (quote ++ B "path" ++ quote ++ B ":") ++ tp ++ B "}" ++ []) with ((quote ++ B "message" ++ quote ++ B ":") ++ tm ++ B "," ++ (quote ++ B "path" ++ quote ++ B ":") ++ tp ++ B "}" ++ []).
    rewrite member_next with (v := JStr m); [|exact Km|exact Em|lia]. rewrite member_last with (v := JArr (map (fun p => match p with PStr s => JStr s | PInt z => JInt z end) (p :: ps))); [reflexivity|exact Kp|exact Ep|lia].
  - pose proof (elem_locs (l :: ls) ltac:(discriminate) Hl) as El. set (tl := B "[" ++ joinb (B ",") (map location_json (l :: ls)) ++ B "]") in *. 
    set (txt := B "{" ++ _). assert (E : txt = B "{" ++ quote ++ (B "message" ++ quote ++ B ":") ++ tm ++ B "," ++ (quote ++ B "locations" ++ quote ++ B ":") ++ tl ++ B "}" ++ []) by (unfold txt, tm, tl; rewrite <- !app_assoc; reflexivity).
    assert (L : List.length tm + List.length tl + 3 <= List.length txt) by (rewrite E, !app_length; cbn; lia). rewrite E at 2. rewrite object_text. destruct (List.length txt) as [|[|n]]; [lia|lia|].
    change (quote ++ (B "message" ++ quote ++ B ":") ++ tm ++ B "," ++ (quote ++ B "locations" ++ quote ++ B ":") ++ tl ++ B "}" ++ []) with ((quote ++ B "message" ++ quote ++ B ":") ++ tm ++ B "," ++ (quote ++ B "locations" ++ quote ++ B ":") ++ tl ++ B "}" ++ []).
    rewrite member_next with (v := JStr m); [|exact Km|exact Em|lia]. rewrite member_last with (v := JArr (map (fun l => JObj [jkey "line" (JInt (fst l)); jkey "column" (JInt (snd l))]) (l :: ls))); [reflexivity|exact Kl|exact El|lia].
  - pose proof (elem_path (p :: ps) ltac:(discriminate) Hp) as Ep. set (tp := B "[" ++ joinb (B ",") (map pnode_json (p :: ps)) ++ B "]") in *.
    pose proof (elem_locs (l :: ls) ltac:(discriminate) Hl) as El. set (tl := B "[" ++ joinb (B ",") (map location_json (l :: ls)) ++ B "]") in *. 
    set (txt := B "{" ++ _). assert (E : txt = B "{" ++ quote ++ (B "message" ++ quote ++ B ":") ++ tm ++ B "," ++ (quote ++ B "locations" ++ quote ++ B ":") ++ tl ++ B "," ++ (quote ++ B "path" ++ quote ++ B ":") ++ tp ++ B "}" ++ []) by (unfold txt, tm, tl, tp; rewrite <- !app_assoc; reflexivity).
    assert (L : List.length tm + List.length tl + List.length tp + 4 <= List.length txt) by (rewrite E, !app_length; cbn; lia). rewrite E at 2. rewrite object_text. destruct (List.length txt) as [|[|[|n]]]; [lia|lia|lia|].
    change (quote ++ (B "message" ++ quote ++ B ":") ++ tm ++ ?r) with ((quote ++ B "message" ++ quote ++ B ":") ++ tm ++ r).
    rewrite member_next with (v := JStr m); [|exact Km|exact Em|lia]. rewrite member_next with (v := JArr (map (fun l => JObj [jkey "line" (JInt (fst l)); jkey "column" (JInt (snd l))]) (l :: ls))); [|exact Kl|exact El|lia].
    rewrite member_last with (v := JArr (map (fun p => match p with PStr s => JStr s | PInt z => JInt z end) (p :: ps))); [reflexivity|exact Kp|exact Ep|lia].
Qed.

(** *** the converse: a text that decodes to the message is a plain one *)
Lemma bz_eq z b : z = zb b -> bz z = b. Proof. intros ->. apply bz_zb. Qed.
Lemma decode_inv b t z w : decode_rune (b :: t) = (z, w) -> ((z =? 65533)%Z && (w =? 1)%nat) = false -> firstn w (b :: t) = utf8 z /\ scalar z.
Proof.
  intros D Hn. pose proof (zb_range b) as Rb. assert (Sc : scalar z).
  { destruct (Z_lt_le_dec (zb b) 128) as [H|H]; [|pose proof (decode_rune_ge b t H) as [_ S]; rewrite D in S; exact S]. unfold decode_rune in D. replace (zb b <? 128)%Z with true in D by lia. injection D as <- <-. unfold scalar. lia. }
  split; [|exact Sc]. clear Sc.
  assert (Bad : (rune_error, 1) = (z, w) -> False) by (intros X; injection X as <- <-; discriminate Hn).
  assert (D2 : forall lo hi, (194 <= zb b < 224)%Z -> (128 <= lo)%Z -> (hi <= 191)%Z -> decode2 (zb b) t lo hi = (z, w) -> firstn w (b :: t) = utf8 z).
  { intros lo hi Hx Hlo Hhi E. unfold decode2 in E. destruct t as [|b1 t]; [destruct (Bad E)|]. destruct (in_range lo hi b1) eqn:R; [|destruct (Bad E)]. apply in_range_spec in R. injection E as <- <-.
    set (v := ((zb b - 192) * 64 + (zb b1 - 128))%Z). unfold utf8. replace (v <? 128)%Z with false by (unfold v; lia). replace (v <? 2048)%Z with true by (unfold v; lia). cbn [firstn].
    symmetry. f_equal; [apply bz_eq; unfold v; lia|]. f_equal. apply bz_eq; unfold v; lia. }
  assert (D3 : forall lo hi, (224 <= zb b < 240)%Z -> (128 <= lo)%Z -> (hi <= 191)%Z -> (zb b = 224 -> 160 <= lo)%Z -> decode3 (zb b) t lo hi = (z, w) -> firstn w (b :: t) = utf8 z).
  { intros lo hi Hx Hlo Hhi Hc E. unfold decode3 in E. destruct t as [|b1 [|b2 t]]; [destruct (Bad E)|destruct (Bad E)|]. destruct (in_range lo hi b1 && in_range 128 191 b2) eqn:R; [|destruct (Bad E)].
    apply andb_true_iff in R as [R1 R2]. apply in_range_spec in R1, R2. injection E as <- <-.
    set (v := ((zb b - 224) * 4096 + (zb b1 - 128) * 64 + (zb b2 - 128))%Z). unfold utf8. replace (v <? 128)%Z with false by (unfold v; lia). replace (v <? 2048)%Z with false by (unfold v; lia). replace (v <? 65536)%Z with true by (unfold v; lia). cbn [firstn].
    symmetry. f_equal; [apply bz_eq; unfold v; lia|]. f_equal; [apply bz_eq; unfold v; lia|]. f_equal. apply bz_eq; unfold v; lia. }
  assert (D4 : forall lo hi, (240 <= zb b <= 244)%Z -> (128 <= lo)%Z -> (hi <= 191)%Z -> (zb b = 240 -> 144 <= lo)%Z -> decode4 (zb b) t lo hi = (z, w) -> firstn w (b :: t) = utf8 z).
  { intros lo hi Hx Hlo Hhi Hc E. unfold decode4 in E. destruct t as [|b1 [|b2 [|b3 t]]]; [destruct (Bad E)|destruct (Bad E)|destruct (Bad E)|]. destruct (in_range lo hi b1 && in_range 128 191 b2 && in_range 128 191 b3) eqn:R; [|destruct (Bad E)].
    apply andb_true_iff in R as [R R3]. apply andb_true_iff in R as [R1 R2]. apply in_range_spec in R1, R2, R3. injection E as <- <-.
    set (v := ((zb b - 240) * 262144 + (zb b1 - 128) * 4096 + (zb b2 - 128) * 64 + (zb b3 - 128))%Z). unfold utf8. replace (v <? 128)%Z with false by (unfold v; lia). replace (v <? 2048)%Z with false by (unfold v; lia). replace (v <? 65536)%Z with false by (unfold v; lia). cbn [firstn].
    symmetry. f_equal; [apply bz_eq; unfold v; lia|]. f_equal; [apply bz_eq; unfold v; lia|]. f_equal; [apply bz_eq; unfold v; lia|]. f_equal. apply bz_eq; unfold v; lia. }
  unfold decode_rune in D. destruct (Z.ltb_spec (zb b) 128); [injection D as <- <-; cbn [firstn]; rewrite utf8_1 by lia; rewrite bz_zb; reflexivity|].
  destruct (Z.ltb_spec (zb b) 194); [destruct (Bad D)|].
  destruct (Z.ltb_spec (zb b) 224); [eapply D2 in D; [exact D|lia|lia|lia]|].
  destruct (Z.eqb_spec (zb b) 224); [eapply D3 in D; [exact D|lia|lia|lia|lia]|].
  destruct (Z.eqb_spec (zb b) 237); [eapply D3 in D; [exact D|lia|lia|lia|lia]|].
  destruct (Z.ltb_spec (zb b) 240); [eapply D3 in D; [exact D|lia|lia|lia|lia]|].
  destruct (Z.eqb_spec (zb b) 240); [eapply D4 in D; [exact D|lia|lia|lia|lia]|].
  destruct (Z.ltb_spec (zb b) 244); [eapply D4 in D; [exact D|lia|lia|lia|lia]|].
  destruct (Z.eqb_spec (zb b) 244); [eapply D4 in D; [exact D|lia|lia|lia|lia]|destruct (Bad D)].
Qed.
Lemma hex4_text p h r : hex4 p = Some (h, r) -> exists u, p = u ++ r /\ List.length u = 4.
Proof.
  unfold hex4. destruct p as [|a [|b [|c [|d p]]]]; try discriminate. destruct (hexval a), (hexval b), (hexval c), (hexval d); try discriminate. intros H. injection H as _ <-. exists [a; b; c; d]. split; reflexivity.
Qed.
Lemma escape_text p s r : Json.escape p = Some (s, r) -> exists u, p = u ++ r /\ List.length s <= List.length u.
Proof.
  unfold Json.escape. destruct p as [|c p]; [discriminate|]. cbv zeta. assert (One : forall x, Some ([x], p) = Some (s, r) -> exists u, c :: p = u ++ r /\ List.length s <= List.length u).
  { intros x E. injection E as <- <-. exists [c]. split; [reflexivity|cbn; lia]. }
  repeat match goal with |- (if ?b then Some ([_], p) else _) = _ -> _ => destruct b; [intros E; exact (One _ E)|] end.
  destruct (zb c =? 117)%Z; [|discriminate]. destruct (hex4 p) as [[h r1]|] eqn:E1; [|discriminate]. apply hex4_text in E1. destruct E1 as (u & -> & L).
  assert (Rep : Some (utf8 65533, r1) = Some (s, r) -> exists v, c :: u ++ r1 = v ++ r /\ List.length s <= List.length v).
  { intros E. injection E as <- <-. exists (c :: u). split; [reflexivity|]. pose proof (utf8_length 65533). cbn [List.length]. lia. }
  assert (Hp : forall x, Some (utf8 x, r1) = Some (s, r) -> exists v, c :: u ++ r1 = v ++ r /\ List.length s <= List.length v).
  { intros x E. assert (E2 : s = utf8 x /\ r = r1) by (split; congruence). destruct E2 as [-> ->]. exists (c :: u). split; [reflexivity|]. pose proof (utf8_length x). cbn [List.length]. lia. }
  destruct ((55296 <=? h) && (h <=? 56319))%Z.
  - destruct r1 as [|b1 [|b2 r2]]; [exact Rep|exact Rep|]. destruct ((zb b1 =? 92) && (zb b2 =? 117))%Z; [|exact Rep]. destruct (hex4 r2) as [[l r3]|] eqn:E2; [|discriminate]. destruct ((56320 <=? l) && (l <=? 57343))%Z; [|exact Rep].
    apply hex4_text in E2. destruct E2 as (u2 & -> & L2). intros E. assert (E3 : s = utf8 (65536 + (h - 55296) * 1024 + (l - 56320)) /\ r = r3) by (split; congruence). destruct E3 as [-> ->].
    exists (c :: u ++ b1 :: b2 :: u2). split; [cbn; rewrite <- app_assoc; reflexivity|]. match goal with |- List.length (utf8 ?x) <= _ => pose proof (utf8_length x) end. cbn [List.length]. rewrite app_length. lia.
  - destruct ((56320 <=? h) && (h <=? 57343))%Z; [exact Rep|exact (Hp h)].
Qed.
Lemma string_rest_text fuel : forall p acc s r, string_rest fuel p acc = Some (s, r) ->
  exists t u, p = u ++ quote ++ r /\ s = acc ++ t /\ List.length t <= List.length u /\ (List.length t = List.length u -> t = u /\ plain u).
Proof.
  induction fuel as [|fuel IH]; intros p acc s r H; [discriminate|]. destruct p as [|b p]; [discriminate|]. rewrite string_rest_eq in H by discriminate. destruct (decode_rune (b :: p)) as [z w] eqn:D.
  destruct (Z.eqb_spec z 34) as [->|N1].
  - injection H as <- <-. destruct (decode_inv _ _ _ _ D eq_refl) as [E _]. rewrite utf8_1 in E by lia. pose proof (decode_width b p) as W. rewrite D in W. cbn [snd] in W. destruct w as [|w]; [lia|]. cbn [firstn] in E. assert (E1 : b = bz 34) by congruence. subst b.
    exists [], []. split; [reflexivity|]. split; [symmetry; apply app_nil_r|]. split; [apply le_n|]. intros _. split; [reflexivity|]. exists []. split; [reflexivity|constructor].
  - destruct (Z.eqb_spec z 92) as [->|N2].
    + destruct (Json.escape (skipn 1 (b :: p))) as [[s1 r1]|] eqn:E1; [|discriminate]. apply escape_text in E1. destruct E1 as (u1 & E1 & L1). cbn [skipn] in E1. subst p. destruct (IH _ _ _ _ H) as (t & u & -> & -> & L & _).
      exists (s1 ++ t), (b :: u1 ++ u). split; [cbn [app]; rewrite <- app_assoc; reflexivity|]. split; [rewrite <- app_assoc; reflexivity|]. cbn [List.length]. rewrite !app_length. split; [lia|]. intros X. exfalso. lia.
    + destruct (Z.ltb_spec z 32) as [N3|N3]; [discriminate|]. cbn [orb] in H. destruct ((z =? 65533)%Z && (w =? 1)%nat) eqn:N4; [discriminate|]. destruct (decode_inv _ _ _ _ D N4) as [E Sc]. destruct (IH _ _ _ _ H) as (t & u & E1 & -> & L & Hpl). rewrite E.
      exists (utf8 z ++ t), (utf8 z ++ u). split; [rewrite <- (firstn_skipn w (b :: p)), E, E1, <- app_assoc; reflexivity|]. split; [rewrite <- app_assoc; reflexivity|]. rewrite !app_length. split; [lia|]. intros X. destruct (Hpl ltac:(lia)) as [-> (cs & -> & F)]. split; [reflexivity|].
      exists (z :: cs). split; [reflexivity|]. constructor; [|exact F]. split; [exact Sc|]. split; [exact N3|]. split; [exact N1|exact N2].
Qed.
Lemma members_acc fuel : forall acc p v r, members fuel acc p = Some (v, r) -> exists l, v = JObj (acc ++ l).
Proof.
  induction fuel as [|fuel IH]; intros acc p v r; [discriminate|]. cbn [members]. destruct (string_lit (ws p)) as [[k r1]|]; [|discriminate]. destruct (ws r1) as [|c r2]; [discriminate|]. destruct (zb c =? 58)%Z; [|discriminate].
  destruct (value fuel r2) as [[v1 r3]|]; [|discriminate]. destruct (ws r3) as [|c' r4]; [discriminate|]. destruct (zb c' =? 44)%Z.
  - intros H. apply IH in H. destruct H as (l & ->). exists ((k, v1) :: l). rewrite <- app_assoc. reflexivity.
  - destruct (zb c' =? 125)%Z; [|discriminate]. intros H. injection H as <- _. exists [(k, v1)]. reflexivity.
Qed.
Lemma decode_new_error m : decode (marshal (new_error m)) = Some (JObj [jkey "message" (JStr m)]) -> plain m.
Proof.
  unfold decode, marshal, new_error. cbn [g_message g_locs g_path app]. set (txt := B "{" ++ _). assert (E : txt = B "{" ++ quote ++ (B "message" ++ quote ++ B ":") ++ quote ++ m ++ quote ++ B "}") by (unfold txt; rewrite <- !app_assoc; reflexivity).
  generalize (Datatypes.length txt). rewrite E. intros n. rewrite object_text. destruct n as [|n]; [discriminate|]. cbn [members].
  change (quote ++ (B "message" ++ quote ++ B ":") ++ quote ++ m ++ quote ++ B "}") with (bz 34 :: (B "message" ++ quote ++ B ":") ++ quote ++ m ++ quote ++ B "}"). rewrite ws_head by reflexivity.
  change (bz 34 :: (B "message" ++ quote ++ B ":") ++ quote ++ m ++ quote ++ B "}") with (quote ++ B "message" ++ quote ++ (B ":" ++ quote ++ m ++ quote ++ B "}")). rewrite str_lit by (apply plain_B; reflexivity).
  change (B ":" ++ quote ++ m ++ quote ++ B "}") with (bz 58 :: quote ++ m ++ quote ++ B "}"). rewrite ws_head by reflexivity. change (zb (bz 58) =? 58)%Z with true. cbn iota.
  destruct n as [|n]; [discriminate|]. cbn [value]. change (quote ++ m ++ quote ++ B "}") with (bz 34 :: m ++ quote ++ B "}"). rewrite ws_head by reflexivity. change (zb (bz 34) =? 34)%Z with true. cbn iota.
  unfold string_lit. change (zb (bz 34) =? 34)%Z with true. cbn iota. destruct (string_rest _ _ _) as [[s r]|] eqn:Es; [|discriminate]. apply string_rest_text in Es. destruct Es as (t & u & Et & -> & L & Hpl).
  assert (Lr : List.length u + 1 + List.length r = List.length m + 2) by (apply (f_equal (@List.length _)) in Et; rewrite !app_length in Et; cbn in Et; lia).
  assert (Main : t = m -> plain m).
  { intros ->. assert (Lu : List.length u = List.length m \/ List.length u = S (List.length m)) by lia. destruct Lu as [Lu|Lu]; [destruct (Hpl ltac:(lia)) as [-> P]; exact P|]. exfalso. destruct r as [|x r]; [|cbn in Lr; lia].
    apply (f_equal (fun l => last l (bz 0))) in Et. rewrite app_nil_r in Et. unfold quote in Et. rewrite last_last in Et. rewrite app_assoc in Et. change (B "}") with [bz 125] in Et. rewrite last_last in Et. apply (f_equal zb) in Et. vm_compute in Et. discriminate. }
  cbn [app]. destruct (ws r) as [|c r1] eqn:Ew; [discriminate|]. destruct (zb c =? 44)%Z.
  - destruct (members _ _ r1) as [[v r2]|] eqn:Em; [|discriminate]. apply members_acc in Em. destruct Em as (l & ->). destruct (ws r2); [|discriminate]. intros H. apply Main. cbn [app] in H. unfold jkey in H. congruence.
  - destruct (zb c =? 125)%Z; [|discriminate]. destruct (ws r1); [|discriminate]. intros H. apply Main. unfold jkey in H. congruence.
Qed.
(** a quotation mark inside the message *)
Lemma quote_breaks p c r ls ps : plain p -> ~ In (zb c) [32; 9; 10; 13; 44; 125]%Z -> decode (marshal (mkErr (p ++ quote ++ c :: r) ls ps)) = None.
Proof.
  intros Pp Hc. assert (Wc : is_ws c = false) by (unfold is_ws; cbn [existsb In] in *; lia). unfold decode, marshal. cbn [g_message g_locs g_path].
  match goal with |- context [value (S (List.length ?x)) _] => set (txt := x) end. pose (tl := r ++ quote ++ (match ls with [] => [] | _ => B "," ++ quote ++ B "locations" ++ quote ++ B ":[" ++ joinb (B ",") (map location_json ls) ++ B "]" end) ++
    (match ps with [] => [] | _ => B "," ++ quote ++ B "path" ++ quote ++ B ":[" ++ joinb (B ",") (map pnode_json ps) ++ B "]" end) ++ B "}").
  assert (E : txt = B "{" ++ quote ++ (B "message" ++ quote ++ B ":") ++ quote ++ p ++ quote ++ c :: tl) by (unfold txt, tl; destruct ls, ps; rewrite <- !app_assoc; cbn [app]; reflexivity). clearbody tl.
  generalize (Datatypes.length txt). rewrite E. intros n. rewrite object_text. destruct n as [|n]; [reflexivity|]. cbn [members].
  change (quote ++ (B "message" ++ quote ++ B ":") ++ quote ++ p ++ quote ++ c :: tl) with (bz 34 :: (B "message" ++ quote ++ B ":") ++ quote ++ p ++ quote ++ c :: tl). rewrite ws_head by reflexivity.
  change (bz 34 :: (B "message" ++ quote ++ B ":") ++ quote ++ p ++ quote ++ c :: tl) with (quote ++ B "message" ++ quote ++ (B ":" ++ quote ++ p ++ quote ++ c :: tl)). rewrite str_lit by (apply plain_B; reflexivity).
  change (B ":" ++ quote ++ p ++ quote ++ c :: tl) with (bz 58 :: quote ++ p ++ quote ++ c :: tl). rewrite ws_head by reflexivity. change (zb (bz 58) =? 58)%Z with true. cbn iota.
  destruct n as [|n]; [reflexivity|]. cbn [value]. change (quote ++ p ++ quote ++ c :: tl) with (bz 34 :: p ++ quote ++ c :: tl). rewrite ws_head by reflexivity. change (zb (bz 34) =? 34)%Z with true. cbn iota.
  change (bz 34 :: p ++ quote ++ c :: tl) with (quote ++ p ++ quote ++ c :: tl). rewrite str_lit by exact Pp. rewrite ws_head by exact Wc. replace (zb c =? 44)%Z with false by (cbn [In] in Hc; lia). replace (zb c =? 125)%Z with false by (cbn [In] in Hc; lia). reflexivity.
Qed.

(** order of byte strings *)
Lemma bytes_lt_irrefl a : bytes_lt a a = false.
Proof. induction a as [|x a IH]; [reflexivity|]. cbn [bytes_lt]. rewrite IH. lia. Qed.
Lemma bytes_lt_tri a : forall b, bytes_lt a b = false -> bytes_lt b a = false -> a = b.
Proof.
  induction a as [|x a IH]; intros [|y b] H1 H2; cbn [bytes_lt] in *; try reflexivity; try discriminate.
  destruct (Z.eq_dec (zb x) (zb y)) as [E|E]; [|lia]. assert (x = y) as <- by (rewrite <- (bz_zb x), <- (bz_zb y), E; reflexivity). rewrite Z.ltb_irrefl, Z.eqb_refl in H1, H2. f_equal. apply IH; assumption.
Qed.
Lemma bytes_le_trans a : forall b c, bytes_lt b a = false -> bytes_lt c b = false -> bytes_lt c a = false.
Proof.
  induction a as [|x a IH]; intros b c H1 H2; [destruct c; reflexivity|]. destruct b as [|y b]; [discriminate|]. destruct c as [|z c]; [discriminate|]. cbn [bytes_lt] in *.
  destruct (Z.eq_dec (zb z) (zb x)) as [E|E]; [|lia]. destruct (Z.eq_dec (zb y) (zb x)) as [E'|E']; [|lia]. replace (zb y <? zb x)%Z with false in H1 by lia. replace (zb y =? zb x)%Z with true in H1 by lia. replace (zb z <? zb y)%Z with false in H2 by lia. replace (zb z =? zb y)%Z with true in H2 by lia. rewrite (IH b c H1 H2). lia.
Qed.
Definition le_b (a b : bytes) : Prop := bytes_lt b a = false.
Lemma sorted_unique l1 : forall l2, Permutation l1 l2 -> StronglySorted le_b l1 -> StronglySorted le_b l2 -> l1 = l2.
Proof.
  induction l1 as [|x l1 IH]; intros l2 P S1 S2; [apply Permutation_nil in P; congruence|]. destruct l2 as [|y l2]; [apply Permutation_sym, Permutation_nil in P; discriminate|].
  inversion S1 as [|? ? S1' F1]; subst. inversion S2 as [|? ? S2' F2]; subst. rewrite Forall_forall in F1, F2.
  assert (x = y) as <-.
  { assert (Hx : In x (y :: l2)) by (eapply Permutation_in; [exact P|left; reflexivity]). assert (Hy : In y (x :: l1)) by (eapply Permutation_in; [apply Permutation_sym, P|left; reflexivity]).
    destruct Hx as [->|Hx]; [reflexivity|]. destruct Hy as [->|Hy]; [reflexivity|]. apply bytes_lt_tri; [apply (F2 x Hx)|apply (F1 y Hy)]. }
  f_equal. apply IH; [eapply Permutation_cons_inv; exact P|exact S1'|exact S2'].
Qed.
Lemma slice_sorted_strong (l out : list gerror) : slice_sorted (fun a b => bytes_lt (marshal a) (marshal b)) l out -> StronglySorted le_b (map marshal out).
Proof.
  intros [_ H]. induction out as [|x out IH]; cbn [map]; constructor.
  - apply IH. intros a x' b y c E. apply (H (x :: a) x' b y c). rewrite E. reflexivity.
  - apply Forall_forall. intros k Hk. apply in_map_iff in Hk. destruct Hk as (y & <- & Hy). apply in_split in Hy. destruct Hy as (b & c & ->). apply (H [] x b y c). reflexivity.
Qed.
Lemma fold_cons_rev {X} (l : list X) : forall acc, fold_left (fun l e => e :: l) l acc = rev l ++ acc.
Proof. induction l as [|x l IH]; intros acc; [reflexivity|]. cbn [fold_left rev]. rewrite IH, <- app_assoc. reflexivity. Qed.
Lemma error_value_inj a b : error_value a = error_value b -> a = b.
Proof.
  destruct a as [m1 l1 p1], b as [m2 l2 p2]. unfold error_value. cbn [g_message g_locs g_path]. intros H.
  assert (L : forall l l', map (fun l : Z * Z => JObj [jkey "line" (JInt (fst l)); jkey "column" (JInt (snd l))]) l = map (fun l => JObj [jkey "line" (JInt (fst l)); jkey "column" (JInt (snd l))]) l' -> l = l').
  { induction l as [|[a b] l IH]; intros [|[a' b'] l'] E; try discriminate; [reflexivity|]. cbn [map fst snd] in E. unfold jkey in *. assert (a = a') by congruence. assert (b = b') by congruence. subst. f_equal. apply IH. congruence. }
  assert (P : forall l l', map (fun p => match p with PStr s => JStr s | PInt z => JInt z end) l = map (fun p => match p with PStr s => JStr s | PInt z => JInt z end) l' -> l = l').
  { induction l as [|a l IH]; intros [|a' l'] E; try discriminate; [reflexivity|]. cbn [map] in E. assert (a = a') by (destruct a, a'; congruence). subst. f_equal. apply IH. congruence. }
  assert (K : B "locations" <> B "path") by discriminate. unfold jkey in *.
  assert (m1 = m2) as <- by congruence. destruct l1 as [|x1 l1], l2 as [|x2 l2], p1 as [|y1 p1], p2 as [|y2 p2]; cbn [app] in H; try reflexivity; try congruence.
  - assert (E : y1 :: p1 = y2 :: p2) by (apply P; congruence). rewrite E. reflexivity.
  - assert (E : x1 :: l1 = x2 :: l2) by (apply L; congruence). rewrite E. reflexivity.
  - assert (E : x1 :: l1 = x2 :: l2) by (apply L; congruence). assert (E' : y1 :: p1 = y2 :: p2) by (apply P; congruence). rewrite E, E'. reflexivity.
Qed.
Lemma bytes_lt_prefix p a b : bytes_lt (p ++ a) (p ++ b) = bytes_lt a b.
Proof. induction p as [|x p IH]; [reflexivity|]. cbn [app bytes_lt]. rewrite IH, Z.ltb_irrefl, Z.eqb_refl. reflexivity. Qed.
Lemma bytes_lt_tail a b : forall r r', ~ (exists t, b = a ++ t) -> ~ (exists t, a = b ++ t) -> bytes_lt (a ++ r) (b ++ r') = bytes_lt a b.
Proof.
  revert b. induction a as [|x a IH]; intros b r r' N1 N2; [destruct N1; exists b; reflexivity|]. destruct b as [|y b]; [destruct N2; exists (x :: a); reflexivity|]. cbn [app bytes_lt].
  destruct (Z.eqb_spec (zb x) (zb y)) as [E|E]; [|lia]. assert (x = y) as <- by (rewrite <- (bz_zb x), <- (bz_zb y), E; reflexivity). rewrite IH; [reflexivity| |]; [intros (t & ->); apply N1; exists t; reflexivity|intros (t & ->); apply N2; exists t; reflexivity].
Qed.

(** ** C37 *)
(** A plain error marshals to JSON that decodes to its own message, locations and path. *)
Theorem C37_plain_exact e : plain_error e -> decode (marshal e) = Some (error_value e).
Proof. apply decode_marshal. Qed.
(** For the errors that the library makes (no locations, no path) that is exact: the text decodes to the message if and only if the message is plain. *)
Theorem C37_message_iff m : decode (marshal (new_error m)) = Some (JObj [(B "message", JStr m)]) <-> plain m.
Proof.
  split; [apply decode_new_error|]. intros H. apply (decode_marshal (new_error m)). split; [exact H|]. split; intros ? [].
Qed.
(** A quotation mark in a message, before anything but white space, a comma or a closing brace: the text is no JSON at all. *)
Theorem C37_quote_invalid p c r ls ps : plain p -> ~ In (zb c) [32; 9; 10; 13; 44; 125]%Z -> decode (marshal (mkErr (p ++ quote ++ c :: r) ls ps)) = None.
Proof. apply quote_breaks. Qed.
(** Most of the library's own errors are such: whenever they report a GraphQL name, the JSON is invalid. *)
Inductive reports_quoted (n : bytes) : err -> Prop :=
| rq_arg : reports_quoted n (EDupArg n) | rq_dir : reports_quoted n (EDupDirective n) | rq_dirname : reports_quoted n (EDupDirectiveName n) | rq_input : reports_quoted n (EDupInputField n)
| rq_existed : reports_quoted n (EExistedDirective n) | rq_unknown_ext : reports_quoted n (EExtendUnknown n) | rq_misplaced l : reports_quoted n (EMisplaced n l) | rq_missing a t : reports_quoted n (EMissingArg n a t)
| rq_two : reports_quoted n (ETwoUnderscores n) | rq_exec : reports_quoted n (ENonExecutable n) | rq_reserved : reports_quoted n (EReserved n) | rq_dirarg d : reports_quoted n (EUnknownDirArg n d)
| rq_directive : reports_quoted n (EUnknownDirective n) | rq_type : reports_quoted n (EUnknownType n).
Theorem C37_faithful_refuted n c r e : n = c :: r -> name_char (zb c) -> reports_quoted n e -> decode (marshal (gerror_of e)) = None.
Proof.
  intros -> Hc H. assert (X : exists p r', plain p /\ message e = p ++ quote ++ c :: r').
  { destruct H; cbn [message]; unfold q; change (B """") with quote; rewrite <- ?app_assoc; cbn [app]; match goal with |- exists p r', _ /\ ?p0 ++ _ = _ => exists p0; eexists; split; [apply plain_B; reflexivity|rewrite <- ?app_assoc; cbn [app]; reflexivity] end. }
  destruct X as (p & r' & Hp & E). unfold gerror_of, new_error. rewrite E. apply quote_breaks; [exact Hp|]. cbn [In]. unfold name_char, letter, digit in Hc. lia.
Qed.
(** The errors without quotation marks do marshal faithfully when they report a name. *)
Theorem C37_unquoted n e : plain n -> In e [EDupOperationName n; EDupTypeName n; EDupOperationType n; EExistedType n; EExistedOperationType n; EAnonNotAlone; ESchemaInExtension; ESchemaNotAlone] ->
  decode (marshal (gerror_of e)) = Some (JObj [(B "message", JStr (message e))]).
Proof.
  intros Hn He. apply C37_message_iff. assert (App : forall a b, plain a -> plain b -> plain (a ++ b)).
  { intros a b (x & -> & F1) (y & -> & F2). exists (x ++ y). split; [symmetry; apply utf8s_app|apply Forall_app; auto]. }
  cbn [In] in He. destruct He as [<-|[<-|[<-|[<-|[<-|[<-|[<-|[<-|[]]]]]]]]]; cbn [message]; repeat (apply App); try exact Hn; apply plain_B; reflexivity.
Qed.
Example C37_nonvacuous : plain_error (mkErr (B "Name for 1002 could not be fetched.") [(6, 7); (1, 200)]%Z [PStr (B "hero"); PInt 1]) /\
  decode (marshal (gerror_of (EUnknownType (B "Foo")))) = None /\ decode (marshal (mkErr (B "a\n") [] [])) = Some (JObj [(B "message", JStr (B "a" ++ [bz 10]))]) /\ decode (marshal (mkErr (B "a"",""b"":""c") [] [])) = Some (JObj [(B "message", JStr (B "a")); (B "b", JStr (B "c"))]).
Proof.
  split; [|vm_compute; auto]. split; [apply plain_B; reflexivity|]. split; [intros l [<-|[<-|[]]]; split; split; vm_compute; congruence|intros s [E|[E|[]]]; inversion E; apply (plain_B "hero"); reflexivity].
Qed.

(** ** C38: [sort_errors errs out]: SortErrors, given errs, may return out (both as ForEach visits them). *)
Theorem C38_permutation errs out : sort_errors errs out -> Permutation errs out.
Proof. intros (sl & [P _] & ->). rewrite fold_cons_rev, app_nil_r. eapply Permutation_trans; [exact P|apply Permutation_rev]. Qed.
(** ForEach visits the result in descending order of the JSON texts. *)
Theorem C38_sorted errs out : sort_errors errs out -> forall a x b y c, out = a ++ x :: b ++ y :: c -> bytes_lt (marshal x) (marshal y) = false.
Proof.
  intros (sl & [_ H] & ->) a x b y c E. rewrite fold_cons_rev, app_nil_r in E. apply (H (rev c) y (rev b) x (rev a)). rewrite <- (rev_involutive sl), E. rewrite rev_app_distr. cbn [rev]. rewrite rev_app_distr. cbn [rev]. rewrite <- !app_assoc. reflexivity.
Qed.
(** The result does not depend on the order of the given errors: equal JSON texts, and for plain errors the same errors. *)
Theorem C38_canonical a b oa ob : Permutation a b -> sort_errors a oa -> sort_errors b ob -> map marshal oa = map marshal ob.
Proof.
  intros P (sa & Ha & ->) (sb & Hb & ->). rewrite !fold_cons_rev, !app_nil_r, !map_rev. f_equal. apply sorted_unique; [|apply slice_sorted_strong with (1 := Ha)|apply slice_sorted_strong with (1 := Hb)].
  apply Permutation_map. destruct Ha as [Pa _], Hb as [Pb _]. eapply Permutation_trans; [apply Permutation_sym, Pa|]. eapply Permutation_trans; [exact P|exact Pb].
Qed.
Theorem C38_canonical_plain a b oa ob : Forall plain_error a -> Permutation a b -> sort_errors a oa -> sort_errors b ob -> oa = ob.
Proof.
  intros Pl P Ha Hb. pose proof (C38_canonical a b oa ob P Ha Hb) as E. assert (Pa : Forall plain_error oa) by (rewrite Forall_forall in *; intros x Hx; apply Pl; eapply Permutation_in; [apply Permutation_sym, C38_permutation; exact Ha|exact Hx]).
  assert (Pb : Forall plain_error ob). { rewrite Forall_forall in *; intros x Hx. apply Pl. eapply Permutation_in; [apply Permutation_sym, P|]. eapply Permutation_in; [apply Permutation_sym, C38_permutation; exact Hb|exact Hx]. }
  clear - E Pa Pb. revert ob E Pb. induction Pa as [|x oa Hx _ IH]; intros [|y ob] E Pb; try discriminate; [reflexivity|]. cbn [map] in E. inversion Pb; subst. f_equal; [|apply IH; [congruence|assumption]].
  apply error_value_inj. pose proof (decode_marshal x Hx) as D1. pose proof (decode_marshal y ltac:(assumption)) as D2. replace (marshal x) with (marshal y) in D1 by congruence. congruence.
Qed.
(** Two messages of which neither begins with the other are ordered as messages … *)
Theorem C38_message_order m m' : ~ (exists t, m' = m ++ t) -> ~ (exists t, m = m' ++ t) -> bytes_lt (marshal (new_error m)) (marshal (new_error m')) = bytes_lt m m'.
Proof.
  intros N1 N2. assert (E : forall x, marshal (new_error x) = (B "{" ++ quote ++ B "message" ++ quote ++ B ":" ++ quote) ++ x ++ quote ++ B "}") by (intros x; unfold marshal, new_error; cbn [g_message g_locs g_path]; rewrite <- !app_assoc; reflexivity).
  rewrite !E, bytes_lt_prefix. apply bytes_lt_tail; assumption.
Qed.
(** … but otherwise not: the quotation mark that ends the shorter one takes part, so the order is not that of the messages. *)
Theorem C38_message_order_refuted : exists m m', bytes_lt m m' = true /\ sort_errors [new_error m; new_error m'] [new_error m; new_error m'].
Proof.
  exists (B "Unknown type"), (B "Unknown type!"). split; [reflexivity|]. exists [new_error (B "Unknown type!"); new_error (B "Unknown type")]. split; [|reflexivity]. split; [apply perm_swap|].
  intros a x b y c E. destruct a as [|a1 [|a2 [|a3 a]]]; cbn in E; try discriminate E.
  - injection E as <- E. destruct b as [|b1 [|b2 b]]; cbn in E; [|discriminate E|discriminate E]. injection E as <- _. vm_compute. reflexivity.
  - injection E as _ <- E. destruct b; discriminate E.
Qed.
Example C38_nonvacuous : exists errs out, errs <> out /\ List.length errs = 3 /\ sort_errors errs out /\ Forall plain_error errs.
Proof.
  set (e1 := new_error (B "a")). set (e2 := mkErr (B "b") [(1, 2)]%Z [PStr (B "x")]). set (e3 := new_error (B "c")). exists [e1; e3; e2], [e3; e2; e1]. split; [discriminate|]. split; [reflexivity|]. split.
  - exists [e1; e2; e3]. split; [|reflexivity]. split; [apply perm_skip, perm_swap|]. intros a x b y c E. assert (G : forall u v, In (v, u) [(e1, e2); (e1, e3); (e2, e3)] -> bytes_lt (marshal u) (marshal v) = false) by (intros u v [H|[H|[H|[]]]]; inversion H; subst; vm_compute; reflexivity).
    apply G. destruct a as [|a1 [|a2 [|a3 a]]]; cbn in E; try discriminate E.
    + injection E as <- E. destruct b as [|b1 [|b2 b]]; cbn in E; try discriminate E; [injection E as <- _; left; reflexivity|injection E as _ <- _; right; left; reflexivity|injection E as _ _ E; destruct b; discriminate E].
    + injection E as _ <- E. destruct b as [|b1 b]; cbn in E; [injection E as <- _; right; right; left; reflexivity|injection E as _ E; destruct b; discriminate E].
    + injection E as _ _ <- E. destruct b; discriminate E.
    + injection E as _ _ _ E. destruct a; discriminate E.
  - repeat (apply Forall_cons || apply Forall_nil); (split; [apply plain_B; reflexivity|]; split; [intros l H; cbn in H; try tauto; destruct H as [<-|[]]; split; split; vm_compute; congruence|intros s H; cbn in H; try tauto; destruct H as [H|[]]; inversion H; apply (plain_B "x"); reflexivity]).
Qed.
Print Assumptions C37_message_iff. Print Assumptions C38_canonical_plain.
