(** * DumpBlocks: the block strings the dumper prints (for the proof of C15). *)
From Verif Require Import Base Utf8 Utf8Proofs Lexer LexSpec LexAgree LexMain LexProps PropLex.
From Verif Require Import AST Dumper DumpSpec DumpText DumpWords.
Local Open Scope Z_scope.

(** the escaping of triple quotes, on code points *)
Fixpoint rep (s : list Z) : list Z :=
  match s with
  | [] => []
  | a :: t =>
      match t with
      | b :: c :: t' => if (a =? 34) && (b =? 34) && (c =? 34) then 92 :: 34 :: 34 :: 34 :: rep t' else a :: rep t
      | _ => a :: rep t
      end
  end.
Lemma rep_ind (P : list Z -> list Z -> Prop) :
  P [] [] -> (forall t, P t (rep t) -> P (34 :: 34 :: 34 :: t) (92 :: 34 :: 34 :: 34 :: rep t)) ->
  (forall c t, ~ prefix triple (c :: t) -> P t (rep t) -> P (c :: t) (c :: rep t)) -> forall s, P s (rep s).
Proof.
  intros H0 H3 H1. assert (H : forall n s, (List.length s <= n)%nat -> P s (rep s)).
  { induction n as [|n IH]; intros s Hn; [destruct s; [exact H0|cbn in Hn; lia]|]. destruct s as [|a s]; [exact H0|]. cbn [List.length] in Hn.
    destruct s as [|b [|c t]].
    - apply (H1 a []); [intros (x & E); discriminate|apply IH; cbn; lia].
    - apply (H1 a [b]); [intros (x & E); discriminate|apply IH; cbn in *; lia].
    - cbn [rep]. destruct ((a =? 34) && (b =? 34) && (c =? 34)) eqn:E.
      + replace a with 34 by lia. replace b with 34 by lia. replace c with 34 by lia. apply H3, IH. cbn in Hn. lia.
      + apply (H1 a (b :: c :: t)); [|apply IH; cbn in *; lia]. intros (x & Ex). cbn in Ex. injection Ex as -> -> -> _. discriminate. }
  intros s. apply (H (List.length s)). lia.
Qed.

Lemma escape_block_high u t : Forall (fun b => 128 <= zb b) u -> escapeGraphQLBlockString (u ++ t) = u ++ escapeGraphQLBlockString t.
Proof.
  induction 1 as [|b u Hb _ IH]; [reflexivity|]. cbn [app]. rewrite <- IH. cbn [escapeGraphQLBlockString].
  destruct (u ++ t) as [|x [|y w]]; try reflexivity. replace (Ascii.eqb b Q) with false; [reflexivity|].
  symmetry. apply Ascii.eqb_neq. intros ->. change (zb Q) with 34 in Hb. lia.
Qed.
Lemma utf8s_quotes t x y z : utf8s t = x :: y :: z -> scalars t ->
  Ascii.eqb x Q && Ascii.eqb y Q = true -> exists t', t = 34 :: 34 :: t' /\ z = utf8s t'.
Proof.
  intros E Hs Hq. apply andb_true_iff in Hq as [H1 H2]. apply Ascii.eqb_eq in H1, H2. subst x y.
  assert (O : forall u r, scalars u -> utf8s u = Q :: r -> exists u', u = 34 :: u' /\ r = utf8s u').
  { intros [|c u] r Hu Eu; [discriminate|]. rewrite utf8s_cons in Eu. inversion Hu as [|? ? Hc Hu']; subst.
    destruct (utf8_first c Hc) as (b & w & Ew & Hl & Hh). rewrite Ew in Eu. cbn in Eu. injection Eu as -> Eu. change (zb Q) with 34 in Hl.
    destruct (Z.lt_ge_cases c 128) as [L|L].
    - destruct (Hl L) as [<- ->]. cbn in Eu. subst r. eauto.
    - specialize (Hh L). apply Forall_inv in Hh. exfalso. apply Hh. reflexivity. }
  destruct (O t _ Hs E) as (u & -> & E2). symmetry in E2. apply Forall_inv_tail in Hs. destruct (O u _ Hs E2) as (u' & -> & ->). eauto.
Qed.
Lemma escape_block_text v : scalars v -> escapeGraphQLBlockString (utf8s v) = utf8s (rep v).
Proof.
  apply (rep_ind (fun v r => scalars v -> escapeGraphQLBlockString (utf8s v) = utf8s r)); clear v.
  - reflexivity.
  - intros t IH Hs. repeat apply Forall_inv_tail in Hs. rewrite !utf8s_cons. change (utf8 34) with [Q]. change (utf8 92) with ["\"%char].
    cbn [app escapeGraphQLBlockString]. change (Ascii.eqb Q Q) with true. cbn [andb app]. rewrite IH by exact Hs. reflexivity.
  - intros c t Hp IH Hs. inversion Hs as [|? ? Hc Ht]; subst. rewrite !utf8s_cons. rewrite <- IH by exact Ht.
    destruct (utf8_first c Hc) as (b & w & Ew & Hl & Hh). rewrite Ew. destruct (Z.lt_ge_cases c 128) as [L|L].
    + destruct (Hl L) as [Eb ->]. cbn [app escapeGraphQLBlockString]. destruct (utf8s t) as [|x [|y z]] eqn:Et; try reflexivity.
      destruct (Ascii.eqb b Q && Ascii.eqb x Q && Ascii.eqb y Q) eqn:Eq; [|reflexivity]. exfalso. rewrite <- andb_assoc in Eq. apply andb_true_iff in Eq as [Eq1 Eq2].
      destruct (utf8s_quotes _ _ _ _ Et Ht Eq2) as (t' & -> & _). apply Ascii.eqb_eq in Eq1. subst b. change (zb Q) with 34 in Eb. subst c. apply Hp. exists t'. reflexivity.
    + apply escape_block_high, Hh, L.
Qed.

(** ** Lines *)
Lemma strings_split_eq s : strings_split s = Lexer.split_lf s.
Proof.
  induction s as [|c t IH]; [reflexivity|]. cbn [strings_split Lexer.split_lf]. rewrite IH.
  replace (Ascii.eqb c LF) with (zb c =? 10); [destruct (zb c =? 10); destruct (Lexer.split_lf t); reflexivity|].
  destruct (Ascii.eqb_spec c LF) as [->|Hn]; [reflexivity|]. apply Z.eqb_neq. intros E. apply Hn. apply zb_inj. exact E.
Qed.
Definition line_text (l : list Z) : Prop := ~ In 10 l /\ noCR l.
Lemma lines_nonempty v cur : noCR v -> lines_of v cur <> [].
Proof. intros Hn. rewrite lines_of_acc by exact Hn. revert cur. induction v as [|c t IH]; intros cur; [discriminate|]. inversion Hn; subst. cbn [lines_of]. destruct (c =? 10); [discriminate|]. replace (c =? 13) with false by lia. rewrite lines_of_acc by assumption. specialize (IH H2 []). destruct (lines_of t []); [congruence|discriminate]. Qed.
Lemma lines_join v : noCR v -> join_lf (lines_of v []) = v /\ Forall line_text (lines_of v []).
Proof.
  induction v as [|c t IH]; intros Hn; [split; [reflexivity|repeat constructor; intros []]|]. inversion Hn as [|? ? Hc Ht]; subst. destruct (IH Ht) as [E F].
  pose proof (lines_nonempty t [] Ht) as Hne. cbn [lines_of]. destruct (Z.eqb_spec c 10) as [->|Hc2].
  - cbn [rev]. split; [|constructor; [split; [intros []|constructor]|exact F]]. destruct (lines_of t []) as [|l ls]; [congruence|]. cbn [join_lf app] in *. rewrite E. reflexivity.
  - replace (c =? 13) with false by lia. rewrite lines_of_acc by exact Ht. destruct (lines_of t []) as [|l ls]; [congruence|]. cbn [rev app]. inversion F as [|? ? [F1 F2] F3]; subst. split.
    + destruct ls; cbn [join_lf app] in *; reflexivity.
    + constructor; [|exact F3]. split; [intros [Hx|Hx]; auto|]. constructor; assumption.
Qed.
Lemma lines_of_join ls : ls <> [] -> Forall line_text ls -> lines_of (join_lf ls) [] = ls.
Proof.
  intros Hne F. destruct ls as [|l ls]; [congruence|]. clear Hne. revert l F. induction ls as [|l2 ls IH]; intros l F.
  - inversion F as [|? ? [F1 F2] _]; subst. cbn [join_lf]. clear F. assert (H : forall cur, lines_of l cur = [rev cur ++ l]).
    { induction l as [|c l IH]; intros cur; cbn [lines_of]; [rewrite app_nil_r; reflexivity|]. inversion F2; subst.
      replace (c =? 10) with false by (symmetry; apply Z.eqb_neq; intros ->; apply F1; left; reflexivity). replace (c =? 13) with false by lia.
      rewrite IH; [cbn [rev]; rewrite <- app_assoc; reflexivity| |assumption]. intros Hx. apply F1. right. exact Hx. }
    apply H.
  - inversion F as [|? ? [F1 F2] F3]; subst. change (join_lf (l :: l2 :: ls)) with (l ++ 10 :: join_lf (l2 :: ls)).
    assert (H : forall cur r, lines_of (l ++ 10 :: r) cur = (rev cur ++ l) :: lines_of r []).
    { clear IH F. induction l as [|c l IH]; intros cur r; cbn [app lines_of]; [cbn [Z.eqb Pos.eqb]; rewrite app_nil_r; reflexivity|]. inversion F2; subst.
      replace (c =? 10) with false by (symmetry; apply Z.eqb_neq; intros ->; apply F1; left; reflexivity). replace (c =? 13) with false by lia.
      rewrite IH; [cbn [rev]; rewrite <- app_assoc; reflexivity| |assumption]. intros Hx. apply F1. right. exact Hx. }
    rewrite H. cbn [rev app]. f_equal. apply IH. exact F3.
Qed.

Definition sp (n : nat) : list Z := repeat 32 n.
Definition indented (n : nat) (ls : list (list Z)) : list Z := join_lf (map (fun l => sp n ++ l) ls).
Lemma rep_cons_lf l t : rep (l ++ 10 :: t) = rep l ++ 10 :: rep t.
Proof.
  apply (rep_ind (fun l r => rep (l ++ 10 :: t) = r ++ 10 :: rep t)); clear l.
  - cbn [app]. destruct t as [|b [|c t']]; reflexivity.
  - intros l IH. cbn [app rep Z.eqb Pos.eqb andb]. rewrite IH. reflexivity.
  - intros c l Hp IH. cbn [app]. rewrite <- IH. destruct l as [|b [|d l]]; cbn [app rep].
    + destruct t as [|y t]; [reflexivity|]. replace (10 =? 34) with false by lia. rewrite andb_false_r. reflexivity.
    + replace (10 =? 34) with false by lia. rewrite andb_false_r. reflexivity.
    + destruct ((c =? 34) && (b =? 34) && (d =? 34)) eqn:E; [|reflexivity]. exfalso. apply Hp. exists l.
      replace c with 34 by lia. replace b with 34 by lia. replace d with 34 by lia. reflexivity.
Qed.
Lemma rep_join ls : rep (join_lf ls) = join_lf (map rep ls).
Proof.
  induction ls as [|l ls IH]; [reflexivity|]. destruct ls as [|l2 ls]; [reflexivity|].
  change (join_lf (l :: l2 :: ls)) with (l ++ 10 :: join_lf (l2 :: ls)). rewrite rep_cons_lf, IH. reflexivity.
Qed.

(** ** The characters between the quotes *)
Lemma prefix_no_start p c cs : hd_error p <> Some c -> p <> [] -> ~ prefix p (c :: cs).
Proof. intros H Hp (t & E). destruct p as [|x p]; [congruence|]. cbn in *. congruence. Qed.
Lemma bc_plain c b v : c <> 34 -> c <> 92 -> c = 9 \/ c = 10 \/ 32 <= c -> block_chars b v -> block_chars (c :: b) (c :: v).
Proof. intros H1 H2 H3 H. apply bc_char; [lia| | |exact H]; apply prefix_no_start; try discriminate; cbn; congruence. Qed.
Lemma bc_spaces n b v : block_chars b v -> block_chars (sp n ++ b) (sp n ++ v).
Proof. intros H. induction n as [|n IH]; [exact H|]. cbn [sp repeat app]. apply bc_plain; [lia|lia|lia|exact IH]. Qed.
Lemma rep_head l x : rep l ++ 10 :: x = 34 :: skipn 1 (rep l ++ 10 :: x) -> exists l', l = 34 :: l' /\ rep l = 34 :: rep l' .
Proof.
  apply (rep_ind (fun l r => r ++ 10 :: x = 34 :: skipn 1 (r ++ 10 :: x) -> exists l', l = 34 :: l' /\ r = 34 :: rep l')); [discriminate|discriminate|].
  intros c t _ _ E. cbn in E. injection E as ->. eauto.
Qed.
Lemma rep_two l x : prefix [34; 34] (rep l ++ 10 :: x) -> exists l', l = 34 :: 34 :: l'.
Proof.
  intros (t & E). destruct (rep_head l x) as (l1 & -> & E1); [rewrite E; reflexivity|]. rewrite E1 in E. cbn in E. injection E as E.
  destruct (rep_head l1 x) as (l2 & -> & E2); [rewrite E; reflexivity|]. eauto.
Qed.
Lemma rep_three l x : ~ prefix triple (rep l ++ 10 :: x).
Proof.
  apply (rep_ind (fun l r => ~ prefix triple (r ++ 10 :: x))); clear l.
  - intros (t & E). discriminate. - intros t _ (t' & E). discriminate.
  - intros c t Hp _ (t' & E). cbn in E. injection E as -> E. destruct (rep_two t x) as (l & ->); [exists t'; exact E|]. apply Hp. exists l. reflexivity.
Qed.
Lemma bc_line l b v : Forall okc l -> block_chars (10 :: b) (10 :: v) -> block_chars (rep l ++ 10 :: b) (l ++ 10 :: v).
Proof.
  intros Hl H. revert Hl. apply (rep_ind (fun l r => Forall okc l -> block_chars (r ++ 10 :: b) (l ++ 10 :: v))); clear l.
  - intros _. exact H.
  - intros t IH Hl. repeat apply Forall_inv_tail in Hl. cbn [app]. apply bc_escape. auto.
  - intros c t Hp IH Hl. inversion Hl as [|? ? Hc Ht]; subst. cbn [app]. apply bc_char; [unfold okc in Hc; lia| | |auto].
    + intros (y & E). cbn in E. rewrite <- app_assoc in E. cbn [app] in E. injection E as -> E. destruct (rep_two t (b ++ triple)) as (l & ->); [exists y; exact E|]. apply Hp. exists l. reflexivity.
    + intros (y & E). cbn in E. rewrite <- app_assoc in E. cbn [app] in E. injection E as -> E. apply (rep_three t (b ++ triple)). exists y. exact E.
Qed.
Lemma join_cons f (a b : list Z) ls : join_lf (map f (a :: b :: ls)) = f a ++ 10 :: join_lf (map f (b :: ls)).
Proof. reflexivity. Qed.
Lemma bc_lines n ls m : Forall (Forall okc) ls -> ls <> [] ->
  block_chars (indented n (map rep ls) ++ 10 :: sp m) (indented n ls ++ 10 :: sp m).
Proof.
  intros F Hne. destruct ls as [|l ls]; [congruence|]. clear Hne. unfold indented. rewrite map_map.
  assert (E : block_chars (10 :: sp m) (10 :: sp m)).
  { apply bc_plain; [lia|lia|lia|]. rewrite <- (app_nil_r (sp m)). apply bc_spaces. constructor. }
  revert l F. induction ls as [|l2 ls IH]; intros l F; inversion F as [|? ? Fl Fr]; subst.
  - cbn [map join_lf]. rewrite <- !app_assoc. apply bc_spaces, bc_line; assumption.
  - rewrite !join_cons. rewrite <- !app_assoc. cbn [app]. apply bc_spaces, bc_line; [exact Fl|]. apply bc_plain; [lia|lia|lia|]. apply IH. exact Fr.
Qed.

(** ** The value that reads back *)
Lemma sp_white n : blank (sp n) = true.
Proof. induction n; [reflexivity|]. exact IHn. Qed.
Lemma indent_sp n l : indent_of (sp n ++ l) = (n + indent_of l)%nat.
Proof. induction n as [|n IH]; [reflexivity|]. cbn [sp repeat app indent_of]. change (white 32) with true. cbn iota. unfold sp in IH. rewrite IH. reflexivity. Qed.
Lemma indent_le l : (indent_of l <= List.length l)%nat.
Proof. induction l as [|c l IH]; [cbn; lia|]. cbn. destruct (white c); lia. Qed.
Lemma blank_indent l : blank l = negb (indent_of l <? List.length l)%nat.
Proof.
  induction l as [|c l IH]; [reflexivity|]. unfold blank in *. cbn [forallb indent_of List.length]. destruct (white c); cbn [andb]; [|reflexivity]. rewrite IH. reflexivity.
Qed.
Lemma common_min n ls m : Exists (fun l => exists c t, l = c :: t /\ white c = false) ls ->
  common_indent (map (fun l => sp n ++ l) ls ++ [sp m]) = Some n.
Proof.
  intros H. assert (L : forall ls k, common_indent (map (fun l => sp n ++ l) ls ++ [sp m]) = Some k -> (n <= k)%nat).
  { clear. induction ls as [|l ls IH]; intros k.
    - cbn [map app common_indent]. pose proof (blank_indent (sp m)) as E. rewrite sp_white in E. destruct (indent_of (sp m) <? List.length (sp m))%nat; [discriminate E|discriminate].
    - cbn [map app common_indent]. destruct (indent_of (sp n ++ l) <? List.length (sp n ++ l))%nat; [|apply IH].
      rewrite indent_sp. destruct (common_indent _) as [j|]; intros E; injection E as <-; [specialize (IH j eq_refl)|]; lia. }
  induction H as [l ls (c & t & -> & Hw)|l ls H IH]; cbn [map app common_indent].
  - rewrite indent_sp. cbn [indent_of]. rewrite Hw. rewrite Nat.add_0_r. unfold sp at 1. rewrite app_length, repeat_length. cbn [List.length].
    replace (n <? n + S (List.length t))%nat with true by (symmetry; apply Nat.ltb_lt; lia).
    destruct (common_indent _) as [j|] eqn:E; [|reflexivity]. apply L in E. f_equal. lia.
  - rewrite IH. destruct (indent_of (sp n ++ l) <? List.length (sp n ++ l))%nat; [|reflexivity]. rewrite indent_sp. f_equal. lia.
Qed.
Lemma skipn_sp n l : skipn n (sp n ++ l) = l.
Proof. induction n as [|n IH]; [reflexivity|]. exact IH. Qed.
Lemma blank_skipn k m : blank (skipn k (sp m)) = true.
Proof. revert m; induction k as [|k IH]; intros m; [apply sp_white|]. destruct m; [reflexivity|]. apply IH. Qed.
Lemma drop_blank_last ls : blank (last ls []) = false -> rev (drop_blank_lines (rev ls)) = ls.
Proof.
  destruct ls as [|l ls _] using rev_ind; [discriminate|]. rewrite last_last. intros H. rewrite rev_app_distr. cbn [rev app drop_blank_lines]. rewrite H.
  change (l :: rev ls) with ([l] ++ rev ls). rewrite rev_app_distr, rev_involutive. reflexivity.
Qed.
Lemma value_back n m v : block_stable v ->
  block_string_value (10 :: indented n (lines_of v []) ++ 10 :: sp m) = v.
Proof.
  intros (Hc & Hf & Hl & He). assert (Hn : noCR v) by (eapply Forall_impl; [|exact Hc]; cbn; lia).
  destruct (lines_join v Hn) as [Ej Ft]. pose proof (lines_nonempty v [] Hn) as Hne. rewrite <- Ej at 2. set (ls := lines_of v []) in *.
  assert (El : lines_of (10 :: indented n ls ++ 10 :: sp m) [] = [] :: map (fun l => sp n ++ l) ls ++ [sp m]).
  { replace (10 :: indented n ls ++ 10 :: sp m) with (join_lf ([] :: map (fun l => sp n ++ l) ls ++ [sp m])).
    2:{ unfold indented. destruct ls as [|l0 ls0]; [congruence|]. cbn [map]. clear. assert (J : forall (a : list (list Z)) x, a <> [] -> join_lf (a ++ [x]) = join_lf a ++ 10 :: x).
        { induction a as [|y a IH]; intros x Hy; [congruence|]. destruct a as [|z a]; [reflexivity|]. cbn [app]. change (join_lf (y :: z :: a ++ [x])) with (y ++ 10 :: join_lf ((z :: a) ++ [x])).
          rewrite IH by discriminate. change (join_lf (y :: z :: a)) with (y ++ 10 :: join_lf (z :: a)). rewrite <- app_assoc. reflexivity. }
        change ((sp n ++ l0) :: map (fun l => sp n ++ l) ls0) with (map (fun l => sp n ++ l) (l0 :: ls0)). rewrite <- J by discriminate. reflexivity. }
    apply lines_of_join; [discriminate|]. assert (Hsp : forall k, line_text (sp k)).
    { intros k. split; [intros X; apply repeat_spec in X; discriminate|]. apply Forall_forall. intros x X. apply repeat_spec in X. lia. }
    constructor; [split; [intros []|constructor]|]. apply Forall_app. split; [|constructor; [apply Hsp|constructor]].
    apply Forall_forall. intros x X. apply in_map_iff in X as (l & <- & Hin). rewrite Forall_forall in Ft. destruct (Ft l Hin) as [F1 F2]. destruct (Hsp n) as [G1 G2].
    split; [intros X; apply in_app_or in X; tauto|apply Forall_app; auto]. }
  unfold block_string_value. rewrite El. rewrite common_min by exact He. rewrite map_app, map_map.
  replace (map (fun x => skipn n (sp n ++ x)) ls) with ls by (rewrite <- (map_id ls) at 1; apply map_ext; intros l; symmetry; apply skipn_sp).
  cbn [map drop_blank_lines blank forallb]. destruct ls as [|l0 ls0]; [congruence|]. cbn [app drop_blank_lines]. cbn [hd] in Hf. rewrite Hf.
  change (l0 :: ls0 ++ [skipn n (sp m)]) with ((l0 :: ls0) ++ [skipn n (sp m)]). rewrite rev_app_distr. change (rev [skipn n (sp m)]) with [skipn n (sp m)]. cbn [app drop_blank_lines]. rewrite blank_skipn.
  rewrite (drop_blank_last (l0 :: ls0) Hl). reflexivity.
Qed.

(** ** The word *)
Lemma rep_no_bad l : contains bad (rep l) -> contains (92 :: triple) l.
Proof.
  apply (rep_ind (fun l r => contains bad r -> contains (92 :: triple) l)); clear l.
  - intros H. exfalso. revert H. apply not_contains_nil. discriminate.
  - intros t IH (a & b & E). destruct a as [|a0 [|a1 [|a2 [|a3 a]]]]; try discriminate. cbn in E. injection E as _ _ _ _ E.
    destruct IH as (x & y & ->); [exists a, b; exact E|]. exists (34 :: 34 :: 34 :: x), y. reflexivity.
  - intros c t Hp IH (a & b & E). destruct a as [|a0 a].
    + cbn in E. injection E as -> E. revert E. apply (rep_ind (fun t r => r = 92 :: 34 :: 34 :: 34 :: b -> contains (92 :: triple) (92 :: t))).
      * discriminate. * intros t' _ _. exists [], t'. reflexivity.
      * intros c t' Hp' _ E. injection E as -> E. exfalso. apply (rep_three t' []). exists (b ++ [10]). rewrite E. reflexivity.
    + cbn [app] in E. injection E as _ E. destruct IH as (x & y & ->); [exists a, b; exact E|]. exists (c :: x), y. reflexivity.
Qed.
Lemma no_bad_snoc x c y : ~ In c bad -> ~ contains bad x -> ~ contains bad y -> ~ contains bad (x ++ c :: y).
Proof. intros Hc Hx Hy H. apply contains_split in H; [tauto|exact Hc|exact bad_ne]. Qed.
Lemma no_bad_sp n y : ~ contains bad y -> ~ contains bad (sp n ++ y).
Proof. intros Hy. induction n as [|n IH]; [exact Hy|]. apply (no_bad_snoc [] 32); [unfold bad, triple; cbn; lia|apply not_contains_nil, bad_ne|exact IH]. Qed.
Lemma no_bad_indented n ls y : Forall (fun l => ~ contains bad l) ls -> ~ contains bad y -> ~ contains bad (indented n ls ++ 10 :: y).
Proof.
  assert (H10 : ~ In 10 bad) by (unfold bad, triple; cbn; lia). intros F Hy. unfold indented. destruct ls as [|l ls].
  - apply (no_bad_snoc []); [exact H10|apply not_contains_nil, bad_ne|exact Hy].
  - revert l F. induction ls as [|l2 ls IH]; intros l F; inversion F; subst.
    + cbn [map join_lf]. apply no_bad_snoc; [exact H10|apply no_bad_sp; assumption|exact Hy].
    + rewrite join_cons. rewrite <- app_assoc. cbn [app].
      apply no_bad_snoc; [exact H10|apply no_bad_sp; assumption|]. apply IH. assumption.
Qed.
Lemma contains_part p a l b : contains p l -> contains p (a ++ l ++ b).
Proof. intros (x & y & ->). exists (a ++ x), (y ++ b). rewrite <- !app_assoc. reflexivity. Qed.
Lemma join_parts ls l : In l ls -> exists a b, join_lf ls = a ++ l ++ b.
Proof.
  induction ls as [|l0 ls IH]; [intros []|]. intros [->|Hin].
  - destruct ls; [exists [], []; cbn; rewrite app_nil_r; reflexivity|exists []; eexists; reflexivity].
  - destruct (IH Hin) as (a & b & E). destruct ls as [|l1 ls]; [destruct Hin|]. change (join_lf (l0 :: l1 :: ls)) with (l0 ++ 10 :: join_lf (l1 :: ls)). rewrite E.
    exists (l0 ++ 10 :: a), b. rewrite <- app_assoc. reflexivity.
Qed.
Lemma rep_chars (P : Z -> Prop) l : P 34 -> P 92 -> Forall P l -> Forall P (rep l).
Proof.
  intros H1 H2. apply (rep_ind (fun l r => Forall P l -> Forall P r)); [auto| |].
  - intros t IH H. repeat apply Forall_inv_tail in H. repeat constructor; auto.
  - intros c t _ IH H. inversion H; subst. constructor; auto.
Qed.
Lemma indented_chars (P : Z -> Prop) n ls : P 32 -> P 10 -> Forall (Forall P) ls -> Forall P (indented n ls).
Proof.
  intros H1 H2 F. assert (S : Forall P (sp n)) by (apply Forall_forall; intros x X; apply repeat_spec in X; subst; exact H1).
  unfold indented. induction F as [|l ls Hl _ IH]; [constructor|]. cbn [map join_lf]. destruct (map _ ls) eqn:E; [apply Forall_app; auto|].
  apply Forall_app. split; [apply Forall_app; auto|]. constructor; assumption.
Qed.
Lemma join_Forall (P : Z -> Prop) ls : Forall P (join_lf ls) -> Forall (Forall P) ls.
Proof.
  intros H. apply Forall_forall. intros l Hl. destruct (join_parts ls l Hl) as (a & b & E). rewrite E in H. apply Forall_app in H as [_ H]. apply Forall_app in H as [H _]. exact H.
Qed.

Definition block_text (n m : nat) (v : list Z) : list Z :=
  triple ++ (10 :: indented n (map rep (lines_of v [])) ++ 10 :: sp m) ++ triple.
Lemma block_word n m v : block_stable v -> ~ contains (92 :: triple) v -> Forall (fun c => c <> 0) v -> word KString (block_text n m v) (utf8s v).
Proof.
  intros Hb Hq Hz. pose proof Hb as (Hc & _). assert (Hn : noCR v) by (eapply Forall_impl; [|exact Hc]; cbn; lia).
  assert (Hs : scalars v) by (eapply Forall_impl; [|exact Hc]; cbn; tauto).
  destruct (lines_join v Hn) as [Ej Ft]. pose proof (lines_nonempty v [] Hn) as Hne.
  exists nothing. split; [|split; [|split; [|split]]].
  - unfold block_text. rewrite <- (value_back n m v Hb) at 2. rewrite <- scalars_chars.
    + apply lx_block. apply bc_plain; [lia|lia|lia|]. apply bc_lines; [|exact Hne]. apply join_Forall. rewrite Ej. eapply Forall_impl; [|exact Hc]. unfold okc. cbn. tauto.
    + rewrite value_back by exact Hb. exact Hs.
  - intros c _ [].
  - assert (P : forall c : Z, c = 34 \/ c = 92 \/ c = 32 \/ c = 10 -> scalar c /\ c <> 0) by (unfold scalar; lia).
    unfold block_text, clean. rewrite !Forall_app. assert (T : Forall (fun c => scalar c /\ c <> 0) triple) by (unfold triple; repeat apply Forall_cons; try apply Forall_nil; apply P; auto).
    split; [exact T|]. split; [|exact T]. constructor; [apply P; auto|]. apply Forall_app. split.
    + apply indented_chars; [apply P; auto|apply P; auto|]. apply Forall_forall. intros x X. apply in_map_iff in X as (l & <- & Hl). apply rep_chars; [apply P; auto|apply P; auto|].
      assert (F : Forall (Forall (fun c => scalar c /\ c <> 0)) (lines_of v [])). { apply join_Forall. rewrite Ej. rewrite Forall_forall in *. intros x X. split; [apply Hc, X|apply Hz, X]. }
      rewrite Forall_forall in F. apply F, Hl.
    + constructor; [apply P; auto|]. apply Forall_forall. intros x X. apply repeat_spec in X. subst. apply P; auto.
  - assert (P : forall c : Z, c = 34 \/ c = 92 \/ c = 32 \/ c = 10 -> okc c) by (unfold okc; lia).
    unfold block_text. rewrite !Forall_app. assert (T : Forall okc triple) by (unfold triple; repeat apply Forall_cons; try apply Forall_nil; apply P; auto).
    split; [exact T|]. split; [|exact T]. constructor; [apply P; auto|]. apply Forall_app. split.
    + apply indented_chars; [apply P; auto|apply P; auto|]. apply Forall_forall. intros x X. apply in_map_iff in X as (l & <- & Hl). apply rep_chars; [apply P; auto|apply P; auto|].
      assert (F : Forall (Forall okc) (lines_of v [])). { apply join_Forall. rewrite Ej. eapply Forall_impl; [|exact Hc]. unfold okc. cbn. tauto. }
      rewrite Forall_forall in F. apply F, Hl.
    + constructor; [apply P; auto|]. apply Forall_forall. intros x X. apply repeat_spec in X. subst. apply P; auto.
  - assert (H10 : ~ In 10 bad) by (unfold bad, triple; cbn; lia).
    assert (T : ~ contains bad triple) by (apply (not_in_contains _ _ 92); [left; reflexivity|unfold triple; cbn; lia]).
    unfold block_text. cbn [app]. rewrite <- app_assoc. cbn [app]. apply (no_bad_snoc triple 10); [exact H10|exact T|].
    apply no_bad_indented; [|apply no_bad_sp; exact T]. apply Forall_forall. intros x X Hx. apply in_map_iff in X as (l & <- & Hl). apply rep_no_bad in Hx.
    apply Hq. rewrite <- Ej. destruct (join_parts _ _ Hl) as (a & b & ->). apply contains_part. exact Hx.
Qed.
Lemma stable_nonzero v : block_stable v -> Forall (fun c => c <> 0) v.
Proof. intros (H & _). eapply Forall_impl; [|exact H]. cbn. lia. Qed.
Lemma rep_same l : ~ contains triple l -> rep l = l.
Proof.
  apply (rep_ind (fun l r => ~ contains triple l -> r = l)); [reflexivity| |].
  - intros t _ H. exfalso. apply H. exists [], t. reflexivity.
  - intros c t _ IH H. f_equal. apply IH. intros (a & b & E). apply H. exists (c :: a), b. rewrite E. reflexivity.
Qed.
