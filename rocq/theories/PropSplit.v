(** * PropSplit: theorem C68 (a source can be cut into its definitions). *)
From Verif Require Import Base AST Utf8 Lexer LexSpec LexAgree LexMain LexProps Parser Grammar GrammarProps GrammarFrame PropLex PropParse PropConcat.

(** ** Specification *)
(** Taken alone, the text [p] is a source of one definition, that of [x]. *)
Definition alone (fok : bytes -> bool) (p : list Z) (x : definition) : Prop :=
  exists d, parse fok (utf8s p) = Doc d /\ map def_body (doc_defs d) = [def_body x].
(** [at_ before x] holds of every definition of [ds] and the text before its piece. *)
Fixpoint placed_at (at_ : list Z -> definition -> Prop) (before : list Z) (pieces : list (list Z)) (ds : list definition) : Prop :=
  match pieces, ds with
  | p :: pieces, x :: ds => at_ before x /\ placed_at at_ (before ++ p) pieces ds
  | _, _ => True
  end.
(** The same of every definition but the first. *)
Definition later_placed_at (at_ : list Z -> definition -> Prop) (pieces : list (list Z)) (ds : list definition) : Prop :=
  match pieces, ds with p :: pieces, _ :: ds => placed_at at_ p pieces ds | _, _ => True end.

(** ** Lexing *)
Lemma cut pre cs ts rest : lexing pre cs ts rest -> forall ts1 k ts2, ts = ts1 ++ k :: ts2 ->
  exists a b, cs = a ++ b /\ sbefore k = pre ++ a /\ lexing pre a ts1 [] /\ lexing (pre ++ a) b (k :: ts2) rest.
Proof.
  induction 1 as [pre cs|pre c t ts rest Hi H IH|pre b t ts rest Hb Hle H IH|pre k0 w lit stop t ts rest Hlex He H IH]; intros ts1 k ts2 E.
  - destruct ts1; discriminate.
  - destruct (IH ts1 k ts2 E) as (a & b & -> & E1 & L1 & L2). exists (c :: a), b. rewrite <- app_assoc in E1, L2. split; [reflexivity|]. split; [exact E1|]. split; [apply lg_ignored; assumption|exact L2].
  - destruct (IH ts1 k ts2 E) as (a & b' & -> & E1 & L1 & L2). exists (35%Z :: b ++ a), b'. rewrite <- app_assoc in E1, L2. cbn [app] in E1, L2. split; [cbn [app]; rewrite <- app_assoc; reflexivity|]. split; [exact E1|].
    split; [|exact L2]. apply lg_comment; [exact Hb| |exact L1]. destruct a; [exact I|exact Hle].
  - destruct ts1 as [|x ts1]; cbn [app] in E; injection E as <- E.
    + exists [], (w ++ t). subst ts. rewrite app_nil_r. split; [reflexivity|]. split; [reflexivity|]. split; [apply lg_stop|]. eapply lg_token; eassumption.
    + destruct (IH ts1 k ts2 E) as (a & b & -> & E1 & L1 & L2). exists (w ++ a), b. rewrite <- !app_assoc in *. split; [reflexivity|]. split; [exact E1|]. split; [|exact L2].
      eapply lg_token; [exact Hlex| |exact L1]. destruct a; [exact I|exact He].
Qed.
Definition same (k k' : stok) : Prop := skind k' = skind k /\ slit k' = slit k.
Lemma lexing_shift pre cs ts rest : lexing pre cs ts rest -> forall pre', exists ts', lexing pre' cs ts' rest /\ Forall2 same ts ts'.
Proof.
  induction 1 as [pre cs|pre c t ts rest Hi H IH|pre b t ts rest Hb Hle H IH|pre k0 w lit stop t ts rest Hlex He H IH]; intros pre'.
  - exists []. split; [apply lg_stop|constructor].
  - destruct (IH (pre' ++ [c])) as (ts' & L & F). exists ts'. split; [apply lg_ignored; assumption|exact F].
  - destruct (IH (pre' ++ 35%Z :: b)) as (ts' & L & F). exists ts'. split; [apply lg_comment; assumption|exact F].
  - destruct (IH (pre' ++ w)) as (ts' & L & F). exists (mkStok k0 lit pre' w :: ts'). split; [eapply lg_token; eassumption|]. constructor; [split; reflexivity|exact F].
Qed.
Lemma lex_alone cs ks : clean cs -> regular_blocks cs -> tokens_of cs ks -> exists p e, tokens (utf8s cs) (p ++ [e]) /\ tkind e = KEOF /\ Forall2 tok_is p ks.
Proof.
  intros C R K. destruct (lex_main cs C R) as (ts & e & s & toks & body & rest & H1 & H2 & _ & H4 & H5 & _).
  assert (F : final rest) by (destruct H5 as [(_ & _ & ->)|(_ & H)]; [left; reflexivity|right; exact H]).
  destruct (lexing_unique _ _ _ _ H2 F C R _ _ K (or_introl eq_refl)) as [-> ->]. exists ts, e. split; [exists s; exact H1|]. split; [|exact H4].
  destruct H5 as [(E & _)|(_ & [Hs _])]; [exact E|congruence].
Qed.

(** ** Parsing *)
Lemma eof_nice r e : tkind e = KEOF -> nice Any r [e].
Proof. intros E _. left. unfold tame, face. rewrite E. repeat split; discriminate. Qed.
Definition like (t t' : token) : Prop := face t' = face t.
Lemma alone_def fok p r d : g_def fok Any (p ++ r) d r -> forall cs ks pre, clean cs -> regular_blocks cs -> lexing pre cs ks [] -> Forall2 tok_is p ks -> alone fok cs d.
Proof.
  intros G cs ks pre C R L F. destruct (lexing_shift _ _ _ _ L []) as (ks' & L' & S). destruct (lex_alone cs ks' C R L') as (p' & e' & T & E & F').
  assert (Fp : Forall2 like p p').
  { clear - F F' S. revert ks' p' S F'. induction F as [|t k p ks [H1 H2] F IH]; intros ks' p' S F'; inversion S; subst; inversion F'; subst; constructor; [|eapply IH; eassumption].
    match goal with A : same _ _, B : tok_is _ _ |- _ => destruct A as [A1 A2], B as [B1 B2] end. unfold like, face. congruence. }
  destruct (g_def_move fok Any like (fun t t' H => H) _ _ _ G) as (p0 & Ep & _ & M). apply app_inv_tail in Ep. subst p0.
  destruct (M p' [e'] Fp (eof_nice _ _ E)) as (d' & G' & Hm). destruct Hm as [Hb _].
  destruct (proj1 (C13_language fok _ _ [d'] T)) as (dd & Pd & Ed).
  { exists e'. split; [exact E|]. apply ds_one; [exact G'|]. unfold longest_match. intros _ (x & Hx). inversion Hx; subst. discriminate. }
  exists dd. split; [exact Pd|]. rewrite Ed. cbn [map]. congruence.
Qed.
Section Split.
Variable fok : bytes -> bool.
(** what is known of the position of a token, and of the definition that starts there *)
Variables (P : token -> stok -> Prop) (at_ : list Z -> definition -> Prop).
Hypothesis PA : forall t k x, P t k -> def_line x = tline t -> def_col x = tcol t -> at_ (sbefore k) x.
Lemma split_defs ts0 ds r : g_defs fok Any ts0 ds r -> forall ts e, ts0 = ts ++ [e] -> r = [e] -> forall pre cs ks, lexing pre cs ks [] -> Forall2 tok_is ts ks -> Forall2 P ts ks -> clean cs -> regular_blocks cs ->
  exists p pieces x l, ds = x :: l /\ cs = p ++ List.concat pieces /\ alone fok p x /\ Forall2 (alone fok) pieces l /\ placed_at at_ (pre ++ p) pieces l /\ (forall k ks', ks = k :: ks' -> at_ (sbefore k) x).
Proof.
  induction 1 as [ts0 d r H Hlm|ts0 d r1 l r H Hlm Hl IH]; intros ts e -> -> pre cs ks L F Fp C R.
  - exists cs, [], d, []. split; [reflexivity|]. split; [symmetry; apply app_nil_r|]. split; [eapply alone_def; eassumption|]. split; [constructor|]. split; [exact I|].
    intros k ks' ->. inversion Fp as [|t ? ts' ? Hp]; subst. cbn [app] in H. inversion H; subst. eapply PA; [exact Hp|reflexivity|reflexivity].
  - destruct (g_def_move fok Any like (fun t t' H => H) _ _ _ H) as (p & Ep & Hne & _).
    destruct (g_defs_move fok Any like (fun t t' H => H) _ _ _ Hl) as (p2 & -> & Hne2 & _). rewrite app_assoc in Ep. apply app_inj_tail in Ep. destruct Ep as [-> _].
    apply Forall2_app_inv_l in F. destruct F as (k1 & k2 & F1 & F2 & ->). apply Forall2_app_inv_l in Fp. destruct Fp as (k1' & k2' & P1 & P2 & Ek).
    assert (k1 = k1' /\ k2 = k2') as [<- <-].
    { apply Forall2_length in F1. apply Forall2_length in P1. apply app_eq_app in Ek. destruct Ek as (z & [[-> ->]|[-> ->]]); rewrite app_length in *; destruct z; cbn in *; try lia; rewrite ?app_nil_r; auto. }
    destruct k2 as [|k k2]; [inversion F2; subst; congruence|].
    destruct (cut _ _ _ _ L k1 k k2 eq_refl) as (a & b & -> & Eb & L1 & L2).
    assert (Ca : clean a /\ clean b) by (apply Forall_app; exact C). destruct Ca as [Ca Cb].
    destruct (IH p2 e eq_refl eq_refl (pre ++ a) b (k :: k2) L2 F2 P2 Cb (regular_app _ _ R)) as (q & pieces & x & l' & -> & -> & A & As & At & A0).
    exists a, (q :: pieces), d, (x :: l'). split; [reflexivity|]. split; [reflexivity|]. rewrite <- app_assoc in H. split; [eapply alone_def; [exact H|exact Ca|exact (regular_prefix _ _ R)|exact L1|exact F1]|].
    split; [constructor; assumption|]. split; [cbn [placed_at]; split; [rewrite <- Eb; apply (A0 k k2 eq_refl)|exact At]|].
    intros k0 ks0 E. destruct k1 as [|k1 k1s]; [inversion F1; subst; congruence|]. cbn [app] in E. injection E as <- _. inversion P1 as [|t ? ts' ? Hp]; subst. cbn [app] in H. inversion H; subst. eapply PA; [exact Hp|reflexivity|reflexivity].
Qed.
End Split.

(** ** C68 *)
Theorem C68_split : forall fok cs d, clean cs -> regular_blocks cs -> parse fok (utf8s cs) = Doc d ->
  exists pieces, List.concat pieces = cs /\ Forall2 (alone fok) pieces (doc_defs d) /\
    (Forall (fun c => c <> 13%Z) cs -> later_placed_at (fun before x => def_line x = line_of before) pieces (doc_defs d)) /\
    (plain cs -> later_placed_at (fun before x => def_line x = line_of before /\ def_col x = Z.of_nat (column_of before)) pieces (doc_defs d)).
Proof.
  intros fok cs d C R Hp. destruct (lexed fok cs d C R Hp) as (ts & e & ks & T & E & K & F).
  destruct (C13_sound _ _ _ Hp) as (ts' & T' & Y & _). rewrite (tokens_fun _ _ _ T' T) in Y. destruct Y as (f & _ & Y).
  destruct (placed _ _ _ _ C R T K E) as (_ & FL & FC).
  assert (Ef : f = e). { destruct (g_defs_move fok Any like (fun t t' H => H) _ _ _ Y) as (p & Ep & _). apply app_inj_tail in Ep. symmetry. apply Ep. } subst f.
  set (P := fun (t : token) (k : stok) => (Forall (fun c => c <> 13%Z) cs -> tok_at t k) /\ (plain cs -> tok_at t k /\ tok_col t k)).
  set (at_ := fun before x => (Forall (fun c => c <> 13%Z) cs -> def_line x = line_of before) /\ (plain cs -> def_line x = line_of before /\ def_col x = Z.of_nat (column_of before))).
  assert (FP : Forall2 P ts ks).
  { assert (X : forall (l : list token) (k : list stok), (Forall (fun c => c <> 13%Z) cs -> Forall2 tok_at l k) -> (plain cs -> Forall2 tok_col l k) -> List.length l = List.length k -> Forall2 P l k).
    { unfold P. induction l as [|t l IH]; intros [|k k'] H1 H2 Hl; try discriminate; constructor.
      - split; [intros N; specialize (H1 N); inversion H1; assumption|]. intros N. specialize (H1 (proj1 N)). specialize (H2 N). inversion H1; inversion H2; subst; split; assumption.
      - apply IH; [intros N; specialize (H1 N); inversion H1; assumption|intros N; specialize (H2 N); inversion H2; assumption|cbn in Hl; lia]. }
    apply X; [exact FL|exact FC|eapply Forall2_length, F]. }
  assert (PA : forall t k x, P t k -> def_line x = tline t -> def_col x = tcol t -> at_ (sbefore k) x).
  { intros t k x [H1 H2] El Ec. split; [intros N; rewrite El; apply (H1 N)|]. intros N. destruct (H2 N) as [A B]. rewrite El, Ec. split; [exact A|exact B]. }
  destruct (split_defs fok P at_ PA _ _ _ Y ts e eq_refl eq_refl [] cs ks K F FP C R) as (p & pieces & x & l & Ed & Ecs & A & As & At & _). rewrite Ed.
  exists (p :: pieces). split; [symmetry; exact Ecs|]. split; [constructor; assumption|]. cbn [later_placed_at]. cbn [app] in At. clear - At. split; intros N; revert p l At; induction pieces as [|q pieces IH]; intros p [|y l] At; try exact I; cbn [placed_at] in *; destruct At as [[A1 A2] At]; (split; [first [apply A1, N|apply A2, N]|apply IH, At]).
Qed.
Print Assumptions C68_split.
(** A case that meets the hypotheses: four definitions, a comment between two of them, no space between others. *)
Definition four : list Z := src ("{a(b:""}"")}""text""scalar S # scalar T" ++ nl ++ "extend type Q@d{f:[S]}directive@d on FIELD|QUERY")%string.
Example C68_nonvacuous : exists d, clean four /\ regular_blocks four /\ parse anyfloat (utf8s four) = Doc d /\ plain four /\
  List.concat (map src ["{a(b:""}"")}"; """text""scalar S # scalar T" ++ nl; "extend type Q@d{f:[S]}"; "directive@d on FIELD|QUERY"]%string) = four /\
  map (fun x => (def_line x, def_col x)) (doc_defs d) = [(1, 1%Z); (1, 11%Z); (2, 1%Z); (2, 23%Z)].
Proof.
  eexists. split; [apply cleanb_spec; vm_compute; reflexivity|]. split; [apply regularb_spec; vm_compute; reflexivity|]. split; [vm_compute; reflexivity|]. split; [|split; vm_compute; reflexivity].
  assert (X : forall cs, forallb (fun c => negb (c =? 13)%Z) cs = true -> containsb triple cs = false -> (match List.rev cs with a :: b :: _ => negb ((a =? 34)%Z && (b =? 34)%Z) | _ => true end) = true -> plain cs).
  { intros cs H1 H2 H3. split; [|split].
    - rewrite forallb_forall in H1. apply Forall_forall. intros c Hc. specialize (H1 c Hc). lia.
    - intros H. apply containsb_spec in H. congruence.
    - intros (a & ->). rewrite rev_app_distr in H3. cbn in H3. discriminate. }
  apply X; vm_compute; reflexivity.
Qed.
(** Where the text is cut matters: not at every line end between tokens. *)
Theorem C68_elsewhere_refuted : exists p q d, parse anyfloat (utf8s (src p ++ src q)) = Doc d /\ List.length (doc_defs d) = 2 /\ ~ (exists x, alone anyfloat (src p) x) /\ exists y, alone anyfloat (src q) y.
Proof.
  exists ("type A " ++ nl ++ """B""")%string, "scalar B"%string. eexists. split; [vm_compute; reflexivity|]. split; [vm_compute; reflexivity|]. split.
  - intros (x & d & H & _). vm_compute in H. discriminate.
  - eexists (mkDef 1 1%Z _). eexists. split; [vm_compute; reflexivity|]. vm_compute. reflexivity.
Qed.
Print Assumptions C68_elsewhere_refuted.
