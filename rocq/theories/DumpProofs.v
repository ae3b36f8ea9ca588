(** * DumpProofs: what the dumper prints derives the document again (for the proof of C15). *)
From Verif Require Import Base Utf8 Utf8Proofs Lexer LexerTotal LexSpec LexAgree LexMain LexProps PropLex.
From Verif Require Import AST Parser Grammar GrammarProps PropParse Dumper DumpSpec DumpText DumpWords DumpBlocks.

Definition kl (t : token) : kind * bytes := (tkind t, tlit t).
(** [o] is a text whose tokens, whatever follows, satisfy [R]. *)
Definition Rel := list token -> list token -> Prop.
Definition pr (R : Rel) (b : bool) (o : W) (b' : bool) : Prop :=
  exists cs toks, o = Some (utf8s cs) /\ tx b cs toks b' /\ forall p r, map kl p = toks -> R (p ++ r) r.
Definition comp (R1 R2 : Rel) : Rel := fun ts r => exists m, R1 ts m /\ R2 m r.
Definition gr {A} (g : G A) (a : A) : Rel := fun ts r => g ts a r.

Lemma pr_imp (R R' : Rel) b o b' : pr R b o b' -> (forall ts r, R ts r -> R' ts r) -> pr R' b o b'.
Proof. intros (cs & toks & H1 & H2 & H3) H. exists cs, toks. split; [exact H1|]. split; [exact H2|]. intros p r E. apply H, H3, E. Qed.
Lemma pr_seq R1 R2 b o1 b1 o2 b2 : pr R1 b o1 b1 -> pr R2 b1 o2 b2 -> pr (comp R1 R2) b (o1 +++ o2) b2.
Proof.
  intros (c1 & t1 & -> & H1 & G1) (c2 & t2 & -> & H2 & G2). exists (c1 ++ c2), (t1 ++ t2). cbn [wseq]. rewrite utf8s_app. split; [reflexivity|].
  split; [eapply tx_app; eassumption|]. intros p r E. destruct (map_eq_app kl p t1 t2 E) as (p1 & p2 & -> & E1 & E2).
  exists (p2 ++ r). rewrite <- app_assoc. split; [apply G1, E1|apply G2, E2].
Qed.
Lemma pr_end R b o : pr R b o false -> pr R b o true.
Proof. intros (cs & toks & H1 & H2 & H3). exists cs, toks. auto using tx_end. Qed.
Lemma pr_start R o b : pr R true o b -> pr R false o b.
Proof. intros (cs & toks & H1 & H2 & H3). exists cs, toks. auto using tx_start. Qed.
Lemma pr_skip b : pr eq b wskip b.
Proof. exists [], []. split; [reflexivity|]. split; [constructor|]. intros p r E. destruct p; [reflexivity|discriminate]. Qed.
Lemma pr_char b c : (c = 32 \/ c = 10 \/ c = 44)%Z -> pr eq b (Some (utf8s [c])) false.
Proof. intros H. exists [c], []. split; [reflexivity|]. split; [constructor; exact H|]. intros p r E. destruct p; [reflexivity|discriminate]. Qed.
Lemma pr_sp b : pr eq b (ws " ") false. Proof. apply (pr_char b 32). auto. Qed.
Lemma pr_lf b : pr eq b wlf false. Proof. apply (pr_char b 10). auto. Qed.
Lemma pr_comma b : pr eq b (ws ", ") false.
Proof.
  eapply pr_imp; [exact (pr_seq _ _ _ _ _ _ _ (pr_char b 44 ltac:(auto)) (pr_char false 32 ltac:(auto)))|].
  intros ts r (m & -> & E). exact E.
Qed.
Lemma comp_eq_l R ts r : comp eq R ts r -> R ts r. Proof. intros (m & -> & H). exact H. Qed.
Lemma comp_eq_r R ts r : comp R eq ts r -> R ts r. Proof. intros (m & H & <-). exact H. Qed.
Lemma pr_seq_l R b o1 b1 o2 b2 : pr eq b o1 b1 -> pr R b1 o2 b2 -> pr R b (o1 +++ o2) b2.
Proof. intros H1 H2. eapply pr_imp; [exact (pr_seq _ _ _ _ _ _ _ H1 H2)|apply comp_eq_l]. Qed.
Lemma pr_seq_r R b o1 b1 o2 b2 : pr R b o1 b1 -> pr eq b1 o2 b2 -> pr R b (o1 +++ o2) b2.
Proof. intros H1 H2. eapply pr_imp; [exact (pr_seq _ _ _ _ _ _ _ H1 H2)|apply comp_eq_r]. Qed.
Lemma pr_tok k w lit b b' : tx b w [(k, lit)] b' -> pr (terminal k lit) b (Some (utf8s w)) b'.
Proof.
  intros H. exists w, [(k, lit)]. split; [reflexivity|]. split; [exact H|]. intros p r E. destruct p as [|[k' l' ln cl] [|? ?]]; try discriminate.
  cbn in E. injection E as -> ->. constructor.
Qed.
Lemma pr_punct b c : punctuator c -> pr (terminal KPunct (utf8s [c])) b (Some (utf8s [c])) false.
Proof. intros H. apply pr_tok. constructor. exact H. Qed.
Lemma pr_spread : pr (pun "...") false (ws "...") false.
Proof. apply (pr_tok KPunct [46; 46; 46]%Z). constructor. Qed.
Lemma pr_word k w lit : word k w lit -> pr (terminal k lit) false (Some (utf8s w)) true.
Proof. intros H. apply pr_tok. constructor. exact H. Qed.
Lemma pr_name n : is_name n -> pr (name n) false (wr n) true.
Proof. intros H. destruct (name_word n H) as (w & E & Hw). unfold wr. rewrite E at 2. apply pr_word. exact Hw. Qed.
Fixpoint namey (s : bytes) : bool :=
  match s with [] => true | c :: t => ((65 <=? zb c) && (zb c <=? 90) || (97 <=? zb c) && (zb c <=? 122) || (zb c =? 95))%Z && namey t end.
Lemma namey_name s : namey s = true -> s <> [] -> is_name s.
Proof.
  intros H Hne. destruct s as [|c s]; [congruence|]. cbn in H. apply andb_true_iff in H as [H1 H2].
  assert (L : forall c, ((65 <=? zb c) && (zb c <=? 90) || (97 <=? zb c) && (zb c <=? 122) || (zb c =? 95))%Z = true -> letter (zb c)) by (unfold letter; lia).
  assert (F : Forall letter (map zb s)).
  { clear H1 Hne. induction s as [|d s IH]; [constructor|]. cbn in H2. apply andb_true_iff in H2 as [H3 H4]. constructor; auto. }
  exists (zb c), (map zb s). split; [|split; [auto|eapply Forall_impl; [|exact F]; unfold name_char; auto]].
  symmetry. apply (ascii_utf8s (c :: s)). apply L in H1. constructor; [unfold letter in H1; lia|].
  clear - F. induction s as [|d s IH]; [constructor|]. inversion F; subst. unfold letter in *. constructor; [lia|auto].
Qed.
Lemma pr_kw s : namey (B s) = true -> B s <> [] -> pr (kw s) false (ws s) true.
Proof. intros H1 H2. apply pr_name, namey_name; assumption. Qed.

Ltac punct_lit c := refine (pr_punct _ c _); unfold punctuator; cbn; tauto.
Lemma pr_lpar b : pr (pun "(") b (ws "(") false. Proof. punct_lit 40%Z. Qed.
Lemma pr_rpar b : pr (pun ")") b (ws ")") false. Proof. punct_lit 41%Z. Qed.
Lemma pr_lbra b : pr (pun "[") b (ws "[") false. Proof. punct_lit 91%Z. Qed.
Lemma pr_rbra b : pr (pun "]") b (ws "]") false. Proof. punct_lit 93%Z. Qed.
Lemma pr_lcur b : pr (pun "{") b (ws "{") false. Proof. punct_lit 123%Z. Qed.
Lemma pr_rcur b : pr (pun "}") b (ws "}") false. Proof. punct_lit 125%Z. Qed.
Lemma pr_bang b : pr (pun "!") b (ws "!") false. Proof. punct_lit 33%Z. Qed.
Lemma pr_dollar b : pr (pun "$") b (ws "$") false. Proof. punct_lit 36%Z. Qed.
Lemma pr_at b : pr (pun "@") b (ws "@") false. Proof. punct_lit 64%Z. Qed.
Lemma pr_colon b : pr (pun ":") b (ws ":") false. Proof. punct_lit 58%Z. Qed.
Lemma pr_equal b : pr (pun "=") b (ws "=") false. Proof. punct_lit 61%Z. Qed.
Lemma pr_amp b : pr (pun "&") b (ws "&") false. Proof. punct_lit 38%Z. Qed.
Lemma pr_pipe b : pr (pun "|") b (ws "|") false. Proof. punct_lit 124%Z. Qed.
Lemma pr_colonsp b : pr (pun ":") b (ws ": ") false.
Proof. change (ws ": ") with (ws ":" +++ ws " "). eapply pr_seq_r; [apply pr_colon|apply pr_sp]. Qed.
Lemma pr_eqsp b : pr (pun "=") b (ws " = ") false.
Proof. change (ws " = ") with (ws " " +++ ws "=" +++ ws " "). eapply pr_seq_l; [apply pr_sp|]. eapply pr_seq_r; [apply pr_equal|apply pr_sp]. Qed.
Lemma pr_lcursp b : pr (pun "{") b (ws "{ ") false.
Proof. change (ws "{ ") with (ws "{" +++ ws " "). eapply pr_seq_r; [apply pr_lcur|apply pr_sp]. Qed.
Lemma pr_sprcur b : pr (pun "}") b (ws " }") false.
Proof. change (ws " }") with (ws " " +++ ws "}"). eapply pr_seq_l; [apply pr_sp|apply pr_rcur]. Qed.
Lemma pr_splcur b : pr (pun "{") b (ws " {") false.
Proof. change (ws " {") with (ws " " +++ ws "{"). eapply pr_seq_l; [apply pr_sp|apply pr_lcur]. Qed.
Lemma repeats_sp n : repeats indentation n = utf8s (sp (2 * n)).
Proof. induction n as [|n IH]; [reflexivity|]. replace (2 * S n) with (S (S (2 * n))) by lia. cbn [repeats sp repeat]. rewrite !utf8s_cons. unfold sp in IH. rewrite IH. reflexivity. Qed.
Lemma pr_spaces n : pr eq false (Some (utf8s (sp n))) false.
Proof.
  induction n as [|n IH]; [apply pr_skip|]. cbn [sp repeat]. rewrite utf8s_cons.
  change (Some (utf8 32 ++ utf8s (repeat 32%Z n))) with (ws " " +++ Some (utf8s (sp n))). eapply pr_seq_l; [apply pr_sp|exact IH].
Qed.
Lemma pr_indent n : pr eq false (indent n) false.
Proof. unfold indent, wr. rewrite repeats_sp. apply pr_spaces. Qed.
Lemma pr_indentation : pr eq false (wr indentation) false.
Proof. apply (pr_indent 1). Qed.

(** ** Lists *)
Lemma wseq_assoc a b c : ((a +++ b) +++ c) = (a +++ b +++ c).
Proof. destruct a, b, c; cbn; rewrite ?app_assoc; reflexivity. Qed.
Lemma wseq_skip_r a : a +++ wskip = a. Proof. destruct a; cbn; rewrite ?app_nil_r; reflexivity. Qed.
Lemma wseq_skip_l a : wskip +++ a = a. Proof. destruct a; reflexivity. Qed.
Lemma wfori_ext {A} (f g : nat -> A -> W) i l : (forall i x, f i x = g i x) -> wfori f i l = wfori g i l.
Proof. intros H. revert i. induction l as [|x l IH]; intros i; [reflexivity|]. cbn [wfori]. rewrite H. f_equal. apply IH. Qed.
Fixpoint joinW (sep : W) (l : list W) : W := match l with [] => wskip | [x] => x | x :: r => x +++ sep +++ joinW sep r end.
Lemma wfor_after {A} (f : A -> W) sep l : wfor (fun i x => f x +++ wwhen (Nat.ltb i (List.length l - 1)) sep) l = joinW sep (map f l).
Proof.
  unfold wfor. assert (H : forall n i, i + List.length l = n -> wfori (fun i x => f x +++ wwhen (Nat.ltb i (n - 1)) sep) i l = joinW sep (map f l)); [|apply H; reflexivity].
  induction l as [|x l IH]; intros n i E; [reflexivity|]. cbn [wfori List.length map] in *. rewrite (IH n (S i)) by lia. destruct l as [|y l].
  - replace (Nat.ltb i (n - 1)) with false by (symmetry; apply Nat.ltb_ge; cbn in E; lia). cbn. rewrite !wseq_skip_r. reflexivity.
  - replace (Nat.ltb i (n - 1)) with true by (symmetry; apply Nat.ltb_lt; cbn in E; lia). cbn [wwhen map]. rewrite wseq_assoc. reflexivity.
Qed.
Lemma wfor_before {A} (p : nat -> bool) (f : A -> W) sep l : p 0 = false -> (forall i, p (S i) = true) ->
  wfor (fun i x => wwhen (p i) sep +++ f x) l = joinW sep (map f l).
Proof.
  intros H0 HS. destruct l as [|x l]; [reflexivity|]. unfold wfor. cbn [wfori map]. rewrite H0. cbn [wwhen]. rewrite wseq_skip_l.
  assert (H : forall i l, wfori (fun i x => wwhen (p i) sep +++ f x) (S i) l = match l with [] => wskip | _ => sep +++ joinW sep (map f l) end).
  { clear x l. intros i l. revert i. induction l as [|y l IH]; intros i; [reflexivity|]. cbn [wfori map]. rewrite (IH (S i)), HS. cbn [wwhen].
    destruct l as [|z l]; [rewrite wseq_skip_r; reflexivity|]. rewrite wseq_assoc. reflexivity. }
  rewrite H. destruct l; [rewrite wseq_skip_r; reflexivity|reflexivity].
Qed.
Lemma pr_many {A} (g : G A) (f : A -> W) sep l : pr eq true sep false -> (forall x, In x l -> pr (gr g x) false (f x) true) ->
  pr (gr (many g) l) false (joinW sep (map f l)) true.
Proof.
  intros Hs H. induction l as [|x l IH].
  - apply pr_end. eapply pr_imp; [apply pr_skip|]. intros ts r <-. constructor.
  - assert (Hx : pr (gr g x) false (f x) true) by (apply H; left; reflexivity). specialize (IH (fun y Hy => H y (or_intror Hy))).
    destruct l as [|y l].
    + cbn [map joinW]. eapply pr_imp; [exact Hx|]. intros ts r Hg. eapply many_cons; [exact Hg|constructor].
    + change (joinW sep (map f (x :: y :: l))) with (f x +++ sep +++ joinW sep (map f (y :: l))).
      eapply pr_imp; [eapply pr_seq; [exact Hx|eapply pr_seq_l; [exact Hs|exact IH]]|]. intros ts r (m & H1 & H2). eapply many_cons; eassumption.
Qed.
Lemma pr_many_lf {A} (g : G A) (f : A -> W) l : (forall x, In x l -> pr (gr g x) false (f x) true) ->
  pr (gr (many g) l) false (wfor (fun _ x => f x +++ wlf) l) false.
Proof.
  unfold wfor. generalize 0 at 1. induction l as [|x l IH]; intros i H.
  - eapply pr_imp; [apply pr_skip|]. intros ts r <-. constructor.
  - cbn [wfori]. eapply pr_imp.
    + eapply pr_seq; [eapply pr_seq_r; [apply H; left; reflexivity|apply pr_lf]|apply IH; intros y Hy; apply H; right; exact Hy].
    + intros ts r (m & H1 & H2). eapply many_cons; eassumption.
Qed.
(** a list with separator tokens, perhaps starting with one *)
Lemma pr_sep1 {A} s (g : G A) (f : A -> W) sep l : l <> [] -> pr (pun s) true sep false -> (forall x, In x l -> pr (gr g x) false (f x) true) ->
  pr (gr (sep1 s g) l) false (joinW sep (map f l)) true.
Proof.
  intros Hne Hs H. induction l as [|x l IH]; [congruence|].
  assert (Hx : pr (gr g x) false (f x) true) by (apply H; left; reflexivity). destruct l as [|y l].
  - eapply pr_imp; [exact Hx|]. intros ts r Hg. apply sep_one. exact Hg.
  - specialize (IH ltac:(discriminate) (fun z Hz => H z (or_intror Hz))).
    change (joinW sep (map f (x :: y :: l))) with (f x +++ sep +++ joinW sep (map f (y :: l))).
    eapply pr_imp; [eapply pr_seq; [exact Hx|eapply pr_seq; [exact Hs|exact IH]]|]. intros ts r (m & H1 & m2 & H2 & H3). eapply sep_more; eassumption.
Qed.
Lemma pr_separated {A} s (g : G A) (f : A -> bytes) sa sb l : l <> [] -> pr (pun s) true (wr sa) false -> pr (pun s) true (wr sb) false ->
  (forall x, In x l -> pr (gr g x) false (wr (f x)) true) ->
  pr (comp (maybe s) (gr (sep1 s g) l)) true (dumpSeparated sa sb (map f l)) true.
Proof.
  intros Hne Ha Hb H. unfold dumpSeparated. rewrite map_length.
  replace (wfor (fun i n => wr n +++ wwhen (Nat.ltb i (List.length l - 1)) (wr (if Nat.ltb (List.length l) 3 then sa else sb))) (map f l))
    with (joinW (wr (if Nat.ltb (List.length l) 3 then sa else sb)) (map (fun x => wr (f x)) l)).
  2:{ rewrite <- (map_map f wr), <- (wfor_after wr). rewrite map_length. reflexivity. }
  destruct (Nat.ltb (List.length l) 3).
  - eapply pr_seq; [|apply pr_sep1; [exact Hne|exact Ha|exact H]]. eapply pr_imp; [apply pr_sp|]. intros ts r E. left. exact E.
  - eapply pr_seq; [|apply pr_sep1; [exact Hne|exact Hb|exact H]]. eapply pr_imp; [exact Hb|]. intros ts r E. right. exact E.
Qed.

(** ** Proper tokens *)
Definition proper (t : token) : Prop := (tkind t = KName -> is_name (tlit t)) /\ (tkind t = KFloat -> is_float (tlit t)).
Definition propers (ts : list token) : Prop := Forall proper ts.
Lemma propers_suffix ts r : suffix r ts -> propers ts -> propers r.
Proof. intros (p & ->) H. apply Forall_app in H. apply H. Qed.
Lemma name_proper n ts r : name n ts r -> propers ts -> is_name n.
Proof. intros H Hp. inversion H; subst. apply Forall_inv in Hp. apply Hp. reflexivity. Qed.
Lemma float_proper n ts r : terminal KFloat n ts r -> propers ts -> is_float n.
Proof. intros H Hp. inversion H; subst. apply Forall_inv in Hp. apply Hp. reflexivity. Qed.
Lemma many_items {A} (g : G A) ts l r : sfx g -> many g ts l r -> propers ts -> forall x, In x l -> exists ts' r', g ts' x r' /\ propers ts'.
Proof.
  intros Hs H. induction H as [ts|ts a r1 l r Hg Hm IH]; intros Hp x Hx; [destruct Hx|]. destruct Hx as [<-|Hx]; [eauto|].
  apply IH; [|exact Hx]. eapply propers_suffix; [eapply Hs, Hg|exact Hp].
Qed.
Lemma sep1_items {A} s (g : G A) ts l r : sfx g -> sep1 s g ts l r -> propers ts -> l <> [] /\ forall x, In x l -> exists ts' r', g ts' x r' /\ propers ts'.
Proof.
  intros Hs H. induction H as [ts a r Hg|ts a r1 r2 l r Hg Ht Hm IH]; intros Hp.
  - split; [discriminate|]. intros x [<-|[]]. eauto.
  - split; [discriminate|]. intros x [<-|Hx]; [eauto|]. apply IH; [|exact Hx]. eapply propers_suffix; [eapply terminal_suffix, Ht|]. eapply propers_suffix; [eapply Hs, Hg|exact Hp].
Qed.
Ltac inv H := inversion H; clear H; subst.
(** derive [propers] for every list of tokens that occurs as a rest *)
Ltac pp := repeat match goal with
  | Hp : propers ?ts, H : terminal _ _ ?ts ?r |- _ =>
      lazymatch goal with _ : propers r |- _ => fail | _ => idtac end; assert (propers r) by (eapply propers_suffix; [eapply terminal_suffix, H|exact Hp])
  end.
Ltac ppx L := match goal with
  | Hp : propers ?ts, H : _ ?ts _ ?r |- _ =>
      lazymatch goal with _ : propers r |- _ => fail | _ => idtac end; assert (propers r) by (eapply propers_suffix; [eapply L, H|exact Hp])
  end.
