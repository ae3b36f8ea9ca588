(** * MemoryProofs: the model of Memory.v delivers the tokens of Lexer.v, and where their literals lie. *)
From Verif Require Import Base Utf8 Utf8Proofs Lexer LexerTotal Memory.
From Coq Require Import ZifyBool ZifyNat ZifyN.
Local Open Scope lex_scope.

Definition omap {A C} (f : A -> C) (o : outcome A) : outcome C := match o with Ok a s => Ok (f a) s | Panic => Panic | Fuel => Fuel end.
Definition agree (m : M token) (m' : M mtoken) : Prop := forall i s, m i s = omap (seen i) (m' i s).

Lemma agree_bind {A} (m : M A) k k' : (forall a, agree (k a) (k' a)) -> agree (bind m k) (bind m k').
Proof. intros H i s. unfold bind. destruct (m i s); [apply H|reflexivity|reflexivity]. Qed.
Lemma agree_own t : agree (ret t) (ret (own t)).
Proof. intros i s. destruct t. reflexivity. Qed.
Lemma agree_ret t m : (forall i, seen i m = t) -> agree (ret t) (ret m).
Proof. intros H i s. cbn. rewrite H. reflexivity. Qed.
Lemma slice_held a b i s l s' : slice a b i s = Ok l s' -> l = held i (Buffer (Z.to_nat a) (Z.to_nat b)) /\ s' = s /\ (0 <= a <= b)%Z /\ (b <= Z.of_nat (List.length i))%Z.
Proof.
  unfold slice. destruct ((0 <=? a) && (a <=? b) && (b <=? Z.of_nat (List.length i))) eqn:E; [|discriminate]. intros H. injection H as <- <-. split; [|split; [reflexivity|lia]].
  cbn [held]. f_equal. lia.
Qed.
Lemma agree_slice a b k k' : (forall i s l h, l = held i h -> k l i s = omap (seen i) (k' h i s)) -> agree (bind (slice a b) k) (bind (btos_slice a b) k').
Proof.
  intros H i s. unfold btos_slice, bind. destruct (slice a b i s) as [l s'| |] eqn:E; [|reflexivity|reflexivity]. apply slice_held in E as (E & -> & _). cbn. apply H. exact E.
Qed.
Lemma scanName_agree : agree scanName scanName_m.
Proof.
  apply agree_bind. intros s0. apply agree_bind. intros _. apply agree_bind. intros s1. apply agree_slice. intros i s l h ->. reflexivity.
Qed.
Lemma scanPunctuator_agree r w : agree (scanPunctuator r w) (scanPunctuator_m r w).
Proof.
  apply agree_bind. intros s0. destruct (r =? 46).
  - apply agree_bind. intros [r2 w2]. apply agree_bind. intros [r3 w3]. destruct (_ || _); [apply agree_own|apply agree_ret; reflexivity].
  - apply agree_slice. intros i s l h ->. reflexivity.
Qed.
Lemma scanNumber_agree r : agree (scanNumber r) (scanNumber_m r).
Proof.
  apply agree_bind. intros s0. apply agree_bind. intros [e|rw]; [apply agree_own|]. apply agree_bind. intros [e|[rw' fl]]; [apply agree_own|].
  apply agree_bind. intros [e|[[r' w] fl']]; [apply agree_own|]. apply agree_bind. intros _. apply agree_bind. intros s1. apply agree_slice. intros i s l h ->. reflexivity.
Qed.
Lemma scanString_agree : agree scanString scanString_m.
Proof.
  apply agree_bind. intros s0. apply agree_bind. intros [r|[|]]; [apply agree_own| |].
  - apply agree_bind. intros _. apply agree_bind. intros [e|bs]; [apply agree_own|apply agree_ret; reflexivity].
  - apply agree_bind. intros s1. apply agree_slice. intros i s l h ->. reflexivity.
Qed.

(** ** Block strings *)
Lemma split_at_snd raw : forall o, map snd (split_at_lf o raw) = split_lf raw.
Proof.
  induction raw as [|b t IH]; intros o; [reflexivity|]. cbn [split_at_lf split_lf]. rewrite <- (IH (S o)). destruct (zb b =? 10); [reflexivity|].
  destruct (split_at_lf (S o) t) as [|[p l] ls]; reflexivity.
Qed.
Lemma dedent_at_snd ci ls : map snd (dedent_at ci ls) = dedent ci (map snd ls).
Proof.
  destruct ci as [c|]; [|reflexivity]. destruct ls as [|l ls]; [reflexivity|]. cbn [dedent_at dedent map]. f_equal. rewrite !map_map. apply map_ext. intros [o x]. cbn [snd fst].
  destruct (Nat.ltb _ _); reflexivity.
Qed.
Lemma drop_blank_at_snd ls : map snd (drop_blank_at ls) = drop_blank (map snd ls).
Proof. induction ls as [|l ls IH]; [reflexivity|]. cbn [drop_blank_at drop_blank map]. destruct (leadingWhitespace (snd l)); [reflexivity|exact IH]. Qed.
Lemma kept_snd raw : map snd (kept_lines raw) = trim_blank (dedent (commonIndent (split_lf raw)) (split_lf raw)).
Proof. unfold kept_lines, trim_blank. cbv zeta. rewrite map_rev, drop_blank_at_snd, map_rev, drop_blank_at_snd, dedent_at_snd, split_at_snd. reflexivity. Qed.
(** every line lies where it says *)
Definition lies (raw : bytes) (x : nat * bytes) : Prop := exists a c, raw = a ++ snd x ++ c /\ List.length a = fst x.
Lemma split_at_lies p raw : Forall (lies (p ++ raw)) (split_at_lf (List.length p) raw).
Proof.
  revert p. induction raw as [|b t IH]; intros p.
  - constructor; [|constructor]. exists p, []. split; reflexivity.
  - cbn [split_at_lf]. specialize (IH (p ++ [b])). rewrite app_length in IH. cbn [List.length] in IH. rewrite Nat.add_1_r in IH. rewrite <- app_assoc in IH. cbn [app] in IH. destruct (zb b =? 10).
    + constructor; [|exact IH]. exists p, (b :: t). split; reflexivity.
    + destruct (split_at_lf (S (List.length p)) t) as [|[o l] ls] eqn:E.
      * exfalso. pose proof (split_at_snd t (S (List.length p))) as X. rewrite E in X. cbn in X. destruct t as [|x t]; cbn in X; [discriminate|]. destruct (zb x =? 10); [discriminate|]. destruct (split_lf t); discriminate.
      * inversion IH as [|? ? (a & c & H1 & H2) H3]; subst. constructor; [|exact H3]. cbn [snd fst] in *.
        assert (Ho : o = S (List.length p)) by (destruct t as [|x t]; cbn in E; [injection E as <- _ _; reflexivity|]; destruct (zb x =? 10); [injection E as <- _ _; reflexivity|]; destruct (split_at_lf _ t) as [|[? ?] ?]; injection E as <- _ _; reflexivity).
        exists p, c. split; [|reflexivity]. cbn [snd fst]. assert (Ha : a = p ++ [b]).
        { assert (X : firstn (S (List.length p)) (p ++ b :: t) = p ++ [b]) by (change (p ++ b :: t) with (p ++ [b] ++ t); rewrite app_assoc, firstn_app, firstn_all2 by (rewrite app_length; cbn; lia); rewrite app_length; cbn [List.length]; replace (S (List.length p) - (List.length p + 1)) with 0 by lia; apply app_nil_r).
          rewrite <- X, H1, firstn_app, firstn_all2 by lia. replace (S (List.length p) - List.length a) with 0 by lia. rewrite app_nil_r. reflexivity. }
        rewrite H1, Ha, <- app_assoc. reflexivity.
Qed.
Lemma dedent_at_lies raw ci ls : Forall (lies raw) ls -> Forall (lies raw) (dedent_at ci ls).
Proof.
  intros H. destruct ci as [c|]; [|exact H]. destruct ls as [|l ls]; [exact H|]. inversion H as [|? ? H1 H2]; subst. cbn [dedent_at]. constructor; [exact H1|]. apply Forall_map. eapply Forall_impl; [|exact H2].
  intros [o x] (a & d & E & Ea). cbn [fst snd] in *. destruct (Nat.ltb_spec (List.length x) c).
  - exists a, (x ++ d). split; [exact E|exact Ea].
  - exists (a ++ firstn c x), d. cbn [fst snd]. split; [rewrite <- app_assoc, (app_assoc (firstn c x)), firstn_skipn; exact E|rewrite app_length, firstn_length; lia].
Qed.
Lemma drop_blank_at_lies raw ls : Forall (lies raw) ls -> Forall (lies raw) (drop_blank_at ls).
Proof. induction 1 as [|l ls H1 H2 IH]; [constructor|]. cbn [drop_blank_at]. destruct (leadingWhitespace _); [constructor; assumption|exact IH]. Qed.
Lemma kept_lies raw : Forall (lies raw) (kept_lines raw).
Proof.
  unfold kept_lines. cbv zeta. apply Forall_rev, drop_blank_at_lies, Forall_rev, drop_blank_at_lies, dedent_at_lies. exact (split_at_lies [] raw).
Qed.
Lemma skip_skip {A} a b (l : list A) : skipn a (skipn b l) = skipn (a + b) l.
Proof. revert a l; induction b as [|b IH]; intros a l; [rewrite Nat.add_0_r; reflexivity|]. rewrite Nat.add_succ_r. destruct l; [apply skipn_nil|]. cbn. apply IH. Qed.
Lemma held_piece i a b (o : nat) l c d : held i (Buffer a b) = c ++ l ++ d -> List.length c = o -> held i (Buffer (a + o) (a + o + List.length l)) = l.
Proof.
  cbn [held]. intros H Ho. replace (a + o + List.length l - (a + o)) with (List.length l) by lia. 
  assert (X : skipn o (firstn (b - a) (skipn a i)) = l ++ d) by (rewrite H, skipn_app, skipn_all2 by lia; rewrite Ho, Nat.sub_diag; reflexivity).
  rewrite skipn_firstn_comm, skip_skip in X. apply (f_equal (firstn (List.length l))) in X. rewrite firstn_app, firstn_all, Nat.sub_diag, app_nil_r in X. rewrite firstn_firstn in X.
  rewrite (Nat.add_comm a o). rewrite <- X at 2. f_equal. assert (Y : List.length (firstn (b - a) (skipn a i)) = o + List.length l + List.length d) by (rewrite H, !app_length; lia). rewrite firstn_length in Y. lia.
Qed.
Lemma blockString_held i raw h : raw = held i h -> held i (blockString_m raw h) = blockStringValue raw.
Proof.
  intros Hr. unfold blockString_m, blockStringValue. cbv zeta. rewrite <- kept_snd. pose proof (kept_lies raw) as L. destruct (kept_lines raw) as [|[o l] [|x ls]]; [reflexivity| |destruct h; reflexivity].
  destruct h as [a b|w]; [|reflexivity]. inversion L as [|? ? (c & d & E & Eo) _]; subst. cbn [fst snd] in *. rewrite (held_piece i a b o l c d E Eo). reflexivity.
Qed.
Lemma scanBlockString_agree : agree scanBlockString scanBlockString_m.
Proof.
  apply agree_bind. intros s0. cbv zeta. apply agree_bind. intros [e|[he hc]]; [apply agree_own|]. destruct (negb hc && negb he).
  - apply agree_bind. intros s1 i s. unfold bind. destruct (slice _ _ i s) as [l s'| |] eqn:E; [|reflexivity|reflexivity]. apply slice_held in E as (E & -> & E1 & _).
    cbn. unfold seen. cbn [mkind mlit mline mcol]. rewrite blockString_held; [reflexivity|]. rewrite E. f_equal. f_equal; lia.
  - apply agree_bind. intros _. apply agree_bind. intros [e|bs]; [apply agree_own|]. intros i s. cbn. unfold seen. cbn [mkind mlit mline mcol]. rewrite blockString_held; reflexivity.
Qed.
Lemma scan_loop_agree n : agree (scan_loop n) (scan_loop_m n).
Proof.
  induction n as [|n IH]; [intros i s; reflexivity|]. cbn [scan_loop scan_loop_m]. apply agree_bind. intros [r w].
  destruct (is_name_start r); [apply scanName_agree|]. destruct (is_punct r); [apply scanPunctuator_agree|]. destruct (is_digit r || (r =? 45)); [apply scanNumber_agree|].
  destruct (r =? 35); [apply agree_bind; intros _; exact IH|]. destruct (r =? 34).
  - apply agree_bind. intros [r1 w1]. apply agree_bind. intros [r2 w2]. destruct (_ && _); [apply scanBlockString_agree|]. apply agree_bind. intros _. apply agree_bind. intros _. apply scanString_agree.
  - destruct (r =? eof); apply agree_bind; intros s; apply agree_ret; reflexivity.
Qed.
Lemma scan_agree : agree scan scan_m.
Proof. intros i s. apply scan_loop_agree. Qed.
Lemma lex_loop_agree n i : forall s, lex_loop n i s = omap (map (seen i)) (lex_loop_m n i s).
Proof.
  induction n as [|n IH]; intros s; [reflexivity|]. cbn [lex_loop lex_loop_m]. rewrite scan_agree. destruct (scan_m i s) as [t s'| |]; [|reflexivity|reflexivity]. cbn [omap].
  change (is_last (seen i t)) with (match mkind t with KEOF | KIllegal => true | _ => false end). destruct (match mkind t with KEOF | KIllegal => true | _ => false end); [reflexivity|]. rewrite IH. destruct (lex_loop_m n i s'); reflexivity.
Qed.

(** ** Where the literals lie *)
Lemma bind_ok {A C} (m : M A) (k : A -> M C) i s x s' : bind m k i s = Ok x s' -> exists a s1, m i s = Ok a s1 /\ k a i s1 = Ok x s'.
Proof. unfold bind. destruct (m i s) as [a s1| |]; try discriminate. eauto. Qed.
Ltac ob H := let a := fresh "a" in let s := fresh "s" in let E := fresh "E" in apply bind_ok in H as (a & s & E & H).
Lemma get_ok i s a s1 : get i s = Ok a s1 -> a = s /\ s1 = s.
Proof. intros H. injection H as <- <-. auto. Qed.
Lemma btos_ok a b i s h s1 : btos_slice a b i s = Ok h s1 -> h = Buffer (Z.to_nat a) (Z.to_nat b) /\ s1 = s /\ (0 <= a <= b)%Z /\ (b <= Z.of_nat (List.length i))%Z.
Proof. unfold btos_slice. intros H. ob H. apply slice_held in E as (_ & -> & E). injection H as <- <-. auto. Qed.
Lemma safe_at {A} (m : M A) i s Q a s' : safe m i s Q -> m i s = Ok a s' -> Q a s'.
Proof. unfold safe. intros H E. rewrite E in H. exact H. Qed.
Lemma agree_ok (m : M token) m' i s t s' : agree m m' -> m' i s = Ok t s' -> m i s = Ok (seen i t) s'.
Proof. intros H E. rewrite H, E. reflexivity. Qed.

(** a byte between two places *)
Definition between (i : bytes) (p e : nat) (x : Z) : Prop := exists k b, p <= k < e /\ nth_error i k = Some b /\ zb b = x.
Lemma between_wider i p e p' e' x : between i p e x -> p' <= p -> e <= e' -> between i p' e' x.
Proof. intros (k & b & H & H') ? ?. exists k, b. split; [lia|exact H']. Qed.
Lemma readr_ok i s r w s1 : pos s <= List.length i -> readr i s = Ok (r, w) s1 -> pos s <= pos s1 <= List.length i /\ (r <> 0%Z -> (128 <= r)%Z \/ pos s < pos s1 /\ between i (pos s) (pos s1) r).
Proof.
  intros Hp. rewrite readr_eq by exact Hp. destruct (next (skipn (pos s) i)) as [[r' w'] a] eqn:E. intros H. injection H as -> -> <-.
  pose proof (next_facts _ _ _ _ E) as (Hw & Hr & _). rewrite skipn_length in Hw. cbn [step pos]. split; [lia|]. intros Hnz. destruct (Hr Hnz) as [Hw1 ->].
  destruct (skipn (pos s) i) as [|b t] eqn:Es; [cbn in E; unfold eof in E; congruence|]. unfold next in E. destruct (zb b <? 128) eqn:Eb.
  - right. injection E as <- <-. split; [lia|]. exists (pos s), b. split; [lia|]. split; [rewrite nth_error_skipn, Es; reflexivity|reflexivity].
  - left. destruct t as [|b2 t]; [unfold eof in E; congruence|]. pose proof (decode_rune_ge b (b2 :: t) ltac:(lia)) as [Hd _]. destruct (decode_rune (b :: b2 :: t)). injection E as -> _ _. exact Hd.
Qed.
Lemma readr_width i s r w s1 : pos s <= List.length i -> readr i s = Ok (r, w) s1 -> pos s + w <= pos s1.
Proof. intros Hp. rewrite readr_eq by exact Hp. destruct (next (skipn (pos s) i)) as [[r' w'] a] eqn:E. intros H. injection H as -> -> <-. apply next_facts in E as (E & _). cbn. lia. Qed.
Lemma string_escape n : forall m i s bs bs' s1 s2, pos s <= List.length i -> scanString_pass1 n false i s = Ok (inr true) s1 ->
  List.length i - pos s < m -> scanString_pass2 m bs i s = Ok (inr bs') s2 -> between i (pos s) (pos s2) 92.
Proof.
  induction n as [|n IH]; intros m i s bs bs' s1 s2 Hp H1 Hm H2; [discriminate|]. destruct m as [|m]; [lia|]. cbn [scanString_pass1] in H1. cbn [scanString_pass2] in H2. ob H1. ob H2. rewrite E in E0. injection E0 as <- <-.
  destruct a as [r w]. destruct (readr_ok _ _ _ _ _ Hp E) as [Hs Hr]. destruct (r =? 34) eqn:Eq; [discriminate|]. destruct ((r <? 32) && negb (r =? c_tab)) eqn:Ec; [discriminate|]. 
  assert (r <> 0)%Z by (unfold c_tab in *; lia). cbn [orb] in H2. replace (r =? eof) with false in H2 by (unfold eof; lia). destruct (Z.eqb_spec r c_bsl) as [->|Nb].
  - unfold c_bsl in *. destruct (Hr H) as [?|[Hlt Hb]]; [lia|]. ob H2. pose proof (safe_at _ _ _ _ _ _ (escapedChar_safe i s0 ltac:(lia)) E0) as HE. cbn beta in HE. destruct a as [e|c]; [discriminate|].
    pose proof (safe_at _ _ _ _ _ _ (scanString_pass2_safe m _ i s3 ltac:(lia) ltac:(lia)) H2) as HE2. cbn beta in HE2. eapply between_wider; [exact Hb|lia|lia].
  - assert (pos s < pos s0). { destruct (Hr H) as [?|[? _]]; [|assumption]. revert E. rewrite readr_eq by exact Hp. destruct (next (skipn (pos s) i)) as [[r' w'] a'] eqn:En. intros E. injection E as -> -> <-. apply next_facts in En as (? & Hx & _). destruct (Hx H). cbn. lia. }
    assert (Hs2 : pos s0 <= pos s2) by (pose proof (safe_at _ _ _ _ _ _ (scanString_pass2_safe m _ i s0 ltac:(lia) ltac:(lia)) H2) as X; cbn beta in X; lia).
    eapply between_wider; [eapply (IH m i s0 _ _ _ _ ltac:(lia) H1 ltac:(lia) H2)|lia|lia].
Qed.
Lemma block_flag n : forall he hc i s he' hc' s1, pos s <= List.length i -> scanBlock_pass1 n he hc i s = Ok (inr (he', hc')) s1 ->
  he' || hc' = true -> he || hc = true \/ between i (pos s) (pos s1) 92 \/ between i (pos s) (pos s1) 13.
Proof.
  induction n as [|n IH]; intros he hc i s he' hc' s1 Hp H F; [discriminate|]. pose proof (scanBlock_pass1_end _ _ _ _ _ _ _ Hp H) as Hend. cbn [scanBlock_pass1] in H. ob H. destruct a as [r w]. destruct (readr_ok _ _ _ _ _ Hp E) as [Hs Hr].
  assert (Wide : forall p x, pos s <= p -> between i p (pos s1) x -> between i (pos s) (pos s1) x) by (intros p x ? Hb; eapply between_wider; [exact Hb|lia|lia]).
  assert (Rec : forall s2, pos s0 <= pos s2 <= List.length i -> scanBlock_pass1 n he hc i s2 = Ok (inr (he', hc')) s1 -> he || hc = true \/ between i (pos s) (pos s1) 92 \/ between i (pos s) (pos s1) 13).
  { intros s2 Hs2 H2. destruct (IH he hc i s2 he' hc' s1 ltac:(lia) H2 F) as [?|[Hb|Hb]]; [auto| |]; right; [left|right]; (eapply Wide; [|exact Hb]; lia). }
  destruct (Z.eqb_spec r c_bsl) as [->|N1].
  - right. left. unfold c_bsl in *. destruct (Hr ltac:(lia)) as [?|[Hlt Hb]]; [lia|]. assert (pos s0 <= pos s1); [|eapply between_wider; [exact Hb|lia|lia]].
    ob H. destruct a as [r2 w2]. destruct (readr_ok i s0 r2 w2 s2 ltac:(lia) E0) as [Hs2 _]. destruct (r2 =? 34).
    + ob H. pose proof (safe_at _ _ _ _ _ _ (isTripQuotes_safe i s2 ltac:(lia)) E1) as [HT _]. pose proof (scanBlock_pass1_end _ _ _ i s3 _ _ ltac:(lia) H). lia.
    + pose proof (scanBlock_pass1_end _ _ _ i s2 _ _ ltac:(lia) H). lia.
  - destruct (Z.eqb_spec r c_cr) as [->|N2].
    + right. right. unfold c_cr in *. destruct (Hr ltac:(lia)) as [?|[Hlt Hb]]; [lia|]. pose proof (scanBlock_pass1_end _ _ _ i s0 _ _ ltac:(lia) H). eapply between_wider; [exact Hb|lia|lia].
    + destruct (r =? eof); [discriminate|]. match type of H with (if ?c then _ else _) _ _ = _ => destruct c end; [discriminate|]. destruct (r =? 34).
      * ob H. pose proof (safe_at _ _ _ _ _ _ (isTripQuotes_safe i s0 ltac:(lia)) E0) as [HT _]. destruct a; [injection H as <- <- <-; left; exact F|]. apply (Rec s2); [lia|exact H].
      * apply (Rec s0); [lia|exact H].
Qed.

(** [region p e m]: the literal of the token [m], scanned between [p] and [e], lies there. *)
Definition region (i : bytes) (p e : nat) (m : mtoken) : Prop :=
  match mkind m with
  | KName | KInt | KFloat => exists a, mlit m = Buffer a e /\ p <= a < e
  | KPunct => mlit m = Own (B "...") \/ exists a, mlit m = Buffer a e /\ p <= a < e
  | KString => (exists a b, mlit m = Buffer a b /\ p < a <= b /\ b < e) \/
               exists l, mlit m = Own l /\ (l = [] \/ between i p e 92 \/ between i p e 13 \/ between i p e 10)
  | KIllegal | KEOF => exists l, mlit m = Own l
  end.
Lemma own_region i p e t : tkind t = KIllegal -> region i p e (own t).
Proof. intros H. unfold region. cbn. rewrite H. eauto. Qed.

Lemma scanName_region i s t s' p : 1 <= pos s <= List.length i -> p < pos s -> scanName_m i s = Ok t s' -> region i p (pos s') t.
Proof.
  intros Hp Hq H. pose proof (safe_at _ _ _ _ _ _ (scanName_safe i s Hp) (agree_ok _ _ _ _ _ _ scanName_agree H)) as [HS _].
  unfold scanName_m in H. ob H. apply get_ok in E as [-> ->]. ob H. clear E. ob H. apply get_ok in E as [-> ->]. ob H. apply btos_ok in E as (-> & -> & _). injection H as <- <-. cbn. eexists. split; [f_equal; lia|lia].
Qed.
Lemma scanPunctuator_region r w i s t s' p : w <= pos s <= List.length i -> p + w <= pos s -> 1 <= w -> scanPunctuator_m r w i s = Ok t s' -> region i p (pos s') t.
Proof.
  intros Hp Hq Hw H. unfold scanPunctuator_m in H. ob H. apply get_ok in E as [-> ->]. destruct (r =? 46).
  - ob H. destruct a as [r2 w2]. ob H. destruct a as [r3 w3]. destruct (_ || _); injection H as <- <-; [apply own_region; reflexivity|]. left. reflexivity.
  - ob H. apply btos_ok in E as (-> & -> & _). injection H as <- <-. right. cbn. eexists. split; [f_equal; lia|lia].
Qed.
Lemma scanNumber_region r i s t s' p : 1 <= pos s <= List.length i -> p < pos s -> scanNumber_m r i s = Ok t s' -> region i p (pos s') t.
Proof.
  intros Hp Hq H. pose proof (safe_at _ _ _ _ _ _ (scanNumber_safe r i s Hp) (agree_ok _ _ _ _ _ _ (scanNumber_agree r) H)) as [HS _].
  unfold scanNumber_m in H. cbv zeta in H. ob H. apply get_ok in E as [-> ->]. ob H. clear E. destruct a as [e|rw]; [injection H as <- <-; apply own_region; reflexivity|].
  ob H. clear E. destruct a as [e|[rw' fl]]; [injection H as <- <-; apply own_region; reflexivity|]. ob H. clear E. destruct a as [e|[[r' w'] fl']]; [injection H as <- <-; apply own_region; reflexivity|].
  ob H. clear E. ob H. apply get_ok in E as [-> ->]. ob H. apply btos_ok in E as (-> & -> & _). injection H as <- <-. unfold region. cbn [mkind mlit]. destruct fl'; (eexists; split; [f_equal; lia|lia]).
Qed.
Lemma scanString_region i s t s' p : pos s <= List.length i -> p < pos s -> scanString_m i s = Ok t s' -> region i p (pos s') t.
Proof.
  intros Hp Hq H. unfold scanString_m in H. cbv zeta in H. ob H. apply get_ok in E as [-> ->]. ob H. destruct a as [e|[|]].
  - injection H as <- <-. apply own_region. reflexivity.
  - ob H. injection E0 as _ <-. ob H. destruct a0 as [e|bs]; injection H as <- <-; [apply own_region; reflexivity|]. right. exists bs. split; [reflexivity|]. right. left.
    eapply between_wider; [eapply string_escape; [exact Hp|exact E| |exact E0]|lia|lia]. unfold fuel_of. lia.
  - pose proof (safe_at _ _ _ _ _ _ (scanString_pass1_safe (fuel_of i) false i s Hp ltac:(unfold fuel_of; lia)) E) as HS. cbn beta iota in HS.
    ob H. apply get_ok in E0 as [-> ->]. ob H. apply btos_ok in E0 as (-> & -> & _). injection H as <- <-. left. cbn. eexists _, _. split; [f_equal; lia|lia].
Qed.
Lemma dedent_length ci ls : List.length (dedent ci ls) = List.length ls.
Proof. destruct ci, ls; cbn; rewrite ?map_length; reflexivity. Qed.
Lemma kept_two raw x y l : kept_lines raw = x :: y :: l -> exists c, In c raw /\ zb c = 10%Z.
Proof.
  intros H. assert (L : List.length (kept_lines raw) <= List.length (split_lf raw)).
  { rewrite <- (map_length snd), kept_snd. unfold trim_blank. rewrite rev_length. assert (D : forall l, List.length (drop_blank l) <= List.length l) by (induction l0 as [|z l0 IH]; [reflexivity|]; cbn; destruct (leadingWhitespace z); cbn; lia).
    etransitivity; [apply D|]. rewrite rev_length. etransitivity; [apply D|]. rewrite dedent_length. reflexivity. }
  rewrite H in L. cbn in L. clear H. induction raw as [|b t IH]; [cbn in L; lia|]. destruct (zb b =? 10) eqn:E; [exists b; split; [left; reflexivity|lia]|].
  cbn [split_lf] in L. rewrite E in L. destruct IH as (c & Hc & Hz); [destruct (split_lf t); cbn in *; lia|]. exists c. split; [right; exact Hc|exact Hz].
Qed.
Lemma held_between i a b c : In c (held i (Buffer a b)) -> between i a b (zb c).
Proof.
  cbn [held]. intros H. apply In_nth_error in H as (n & H). assert (L : n < List.length (firstn (b - a) (skipn a i))) by (apply nth_error_Some; congruence). rewrite firstn_length in L.
  exists (a + n), c. split; [lia|]. split; [|reflexivity]. rewrite <- H. clear H. assert (Hn : n < b - a) by lia. clear L. revert n b Hn i. induction a as [|a IH]; intros n b Hn i.
  - cbn [skipn Nat.add]. rewrite Nat.sub_0_r in *. clear - Hn. revert b i Hn. induction n as [|n IH]; intros [|b] [|x i] Hn; try lia; try reflexivity. cbn. apply IH. lia.
  - destruct i as [|x i]; [cbn; rewrite firstn_nil; destruct n; reflexivity|]. destruct b as [|b]; [lia|]. cbn. apply (IH n b); lia.
Qed.
Lemma scanBlockString_region i s t s' p : pos s <= List.length i -> p < pos s -> scanBlockString_m i s = Ok t s' -> region i p (pos s') t.
Proof.
  intros Hp Hq H. unfold scanBlockString_m in H. cbv zeta in H. ob H. apply get_ok in E as [-> ->]. ob H. destruct a as [e|[he hc]]; [injection H as <- <-; apply own_region; reflexivity|].
  pose proof (scanBlock_pass1_end _ _ _ _ _ _ _ Hp E) as HS. destruct (negb hc && negb he) eqn:F.
  - ob H. apply get_ok in E0 as [-> ->]. ob H. apply slice_held in E0 as (Ha & -> & Hz & _). ob H. injection H as <- <-. unfold blockStringLiteral_m in E0. ob E0. injection E0 as <- <-. injection E1 as _ <-. cbn [pos].
    unfold region. cbn [mkind mlit]. unfold blockString_m. pose proof (kept_lies a) as L. destruct (kept_lines a) as [|[o l] [|y ls]] eqn:K.
    + right. exists []. split; [reflexivity|left; reflexivity].
    + left. exists (pos s + o), (pos s + o + List.length l). split; [reflexivity|]. inversion L as [|? ? (c & d & Ea & Eo) _]; subst. cbn [fst snd] in *. apply (f_equal (@List.length _)) in Ea. cbn [held] in Ea. rewrite !app_length, firstn_length in Ea. lia.
    + right. eexists. split; [reflexivity|]. right. right. right. destruct (kept_two _ _ _ _ K) as (c & Hc & <-). rewrite Ha in Hc. apply held_between in Hc. eapply between_wider; [exact Hc|lia|lia].
  - ob H. injection E0 as _ <-. ob H. destruct a0 as [e|bs]; [injection H as <- <-; apply own_region; reflexivity|]. ob H. injection H as <- <-. unfold blockStringLiteral_m in E1. ob E1. injection E1 as <- <-. injection E2 as _ <-. cbn [pos].
    destruct (scanBlock_pass2_follows _ _ _ _ _ _ _ Hp E []) as (raw & E2). change (with_fuel (fun n => scanBlock_pass2 n []) i s = Ok (inr bs) s1) in E0. unfold with_fuel in E0. rewrite E2 in E0. injection E0 as _ <-.
    right. cbn [mlit]. unfold blockString_m. exists (joinb (B (String (ascii_of_N 10) "")) (map snd (kept_lines bs))). split; [destruct (kept_lines bs) as [|[? ?] [|? ?]]; reflexivity|]. right.
    destruct (block_flag _ _ _ _ _ _ _ _ Hp E ltac:(destruct he, hc; auto)) as [?|[Hb|Hb]]; [discriminate| |]; [left|right; left]; (eapply between_wider; [exact Hb|lia|lia]).
Qed.
Lemma scan_region n : forall i s t s', pos s <= List.length i -> scan_loop_m n i s = Ok t s' -> List.length i - pos s < n -> region i (pos s) (pos s') t.
Proof.
  induction n as [|n IH]; intros i s t s' Hp H Hn; [discriminate|]. cbn [scan_loop_m] in H. ob H. destruct a as [r w]. unfold readNextSignificant in E.
  pose proof (safe_at _ _ _ _ _ _ (readNextSignificant_safe (fuel_of i) false i s Hp ltac:(unfold fuel_of; lia)) E) as H1. cbn beta iota in H1.
  destruct (is_name_start r) eqn:En; [assert (r <> 0%Z) by (unfold is_name_start, is_upper, is_lower in En; lia); eapply scanName_region; [| |exact H]; lia|].
  destruct (is_punct r) eqn:Epu; [assert (r <> 0%Z) by (unfold is_punct in Epu; lia); eapply scanPunctuator_region; [| | |exact H]; lia|].
  destruct (is_digit r || (r =? 45)) eqn:Ed; [assert (r <> 0%Z) by (unfold is_digit in Ed; lia); eapply scanNumber_region; [| |exact H]; lia|].
  destruct (Z.eqb_spec r 35) as [->|N35].
  { ob H. unfold with_fuel in E0. pose proof (safe_at _ _ _ _ _ _ (scanComment_safe (fuel_of i) false i s0 ltac:(lia) ltac:(unfold fuel_of; lia)) E0) as H2. cbn beta in H2. assert (R : region i (pos s1) (pos s') t) by (apply (IH i s1); [lia|exact H|lia]).
    unfold region in *. destruct (mkind t); try exact R; try (destruct R as (b & R1 & R2); exists b; split; [exact R1|lia]).
    - destruct R as [R|(b & R1 & R2)]; [left; exact R|right; exists b; split; [exact R1|lia]].
    - destruct R as [(b & c & R1 & R2 & R3)|(l & R1 & R2)]; [left; exists b, c; split; [exact R1|lia]|right; exists l; split; [exact R1|]].
      destruct R2 as [R2|[R2|[R2|R2]]]; [left; exact R2| | |]; apply (between_wider _ _ _ (pos s) (pos s')) in R2; try lia; tauto. }
  destruct (Z.eqb_spec r 34) as [->|N34].
  { ob H. destruct a as [r1 w1]. ob H. destruct a as [r2 w2]. destruct (readr_ok i s0 r1 w1 s1 ltac:(lia) E0) as [H2 _]. destruct (readr_ok i s1 r2 w2 s2 ltac:(lia) E1) as [H3 _]. destruct ((r1 =? 34) && (r2 =? 34)).
    - eapply scanBlockString_region; [| |exact H]; lia.
    - pose proof (readr_width i s0 r1 w1 s1 ltac:(lia) E0) as X1. pose proof (readr_width i s1 r2 w2 s2 ltac:(lia) E1) as X2.
      ob H. unfold unread in E2. destruct (Nat.ltb_spec (pos s2) w2); [discriminate|]. injection E2 as _ <-. ob H. unfold unread in E2. cbn [pos] in E2. destruct (Nat.ltb_spec (pos s2 - w2) w1); [discriminate|]. injection E2 as _ <-. eapply scanString_region; [| |exact H]; cbn [pos]; lia. }
  destruct (r =? eof); ob H; injection H as <- <-; cbn; eauto.
Qed.
