(** * GrammarFrame: whether tokens derive a construct depends only on their kinds and literals, and not on what follows — except that at
    the level [Any] a broken list type must stay broken: the token after it may be changed to anything but a name, "[" or "]". *)
From Verif Require Import Base Utf8 Lexer AST Grammar.

Definition face (t : token) : kind * bytes := (tkind t, tlit t).
(** A name, "[" or "]" does not come next. *)
Definition tame (r : list token) : Prop := match r with [] => True | t :: _ => tkind t <> KName /\ face t <> (KPunct, B "[") /\ face t <> (KPunct, B "]") end.
Definition fronts (r r' : list token) : Prop := match r, r' with t :: _, t' :: _ => face t' = face t | [], [] => True | _, _ => False end.
Definition nice (lv : level) (r r' : list token) : Prop := lv = Any -> tame r' \/ fronts r r'.
Lemma fronts_refl r : fronts r r.
Proof. destruct r; reflexivity || exact I. Qed.
Section Framing.
Variable lv : level.
Definition Fr (R : list token -> list token -> Prop) (ts r : list token) : Prop :=
  exists p, ts = p ++ r /\ forall p' r', map face p' = map face p -> nice lv r r' -> R (p' ++ r') r'.
Definition frame {A} (g : G A) : Prop := forall ts a r, g ts a r -> Fr (fun x y => g x a y) ts r.

Lemma Fr_refl ts : Fr eq ts ts.
Proof. exists []. split; [reflexivity|]. intros [|] r' H _; [reflexivity|discriminate]. Defined.
Lemma Fr_seq (R1 R2 : list token -> list token -> Prop) ts r1 r : Fr R1 ts r1 -> Fr R2 r1 r -> Fr (fun x y => exists z, R1 x z /\ R2 z y) ts r.
Proof.
  intros (p1 & -> & H1) (p2 & -> & H2). exists (p1 ++ p2). split; [apply app_assoc|]. intros p' r' E N. rewrite map_app in E. apply map_eq_app in E.
  destruct E as (q1 & q2 & -> & E1 & E2). exists (q2 ++ r'). rewrite <- app_assoc. split; [|auto]. apply H1; [exact E1|].
  destruct p2 as [|t2 p2]; [apply map_eq_nil in E2; subst q2; exact N|]. destruct q2 as [|t2' q2]; [discriminate|]. cbn [map] in E2. intros _. right. cbn [app fronts]. congruence.
Defined.
Lemma Fr_imp (R R' : list token -> list token -> Prop) ts r : (forall x y, R x y -> R' x y) -> Fr R ts r -> Fr R' ts r.
Proof. intros H (p & E & Hp). exists p. split; [exact E|]. auto. Defined.
Lemma Fr_terminal k lit ts r : terminal k lit ts r -> Fr (terminal k lit) ts r.
Proof.
  intros [l c r0]. exists [mkTok k lit l c]. split; [reflexivity|]. intros [|[k' lit' l' c'] [|]] r' E _; try discriminate. cbn in E. unfold face in E. cbn in E. injection E as -> ->. constructor.
Defined.
Lemma Fr_maybe s ts r : maybe s ts r -> Fr (maybe s) ts r.
Proof. intros [->|H]; [eapply Fr_imp; [|apply Fr_refl]; left; assumption|eapply Fr_imp; [|apply Fr_terminal, H]; right; assumption]. Defined.
Lemma many_frame {A} (g : G A) : frame g -> frame (many g).
Proof.
  intros f. unfold frame. fix go 4. intros ts l r H. destruct H as [ts|ts a r1 l r H1 H2].
  - eapply Fr_imp; [|apply Fr_refl]. intros x y ->. constructor.
  - eapply Fr_imp; [|exact (Fr_seq _ _ _ _ _ (f _ _ _ H1) (go _ _ _ H2))]. intros x y (z & Ha & Hb). econstructor; eassumption.
Defined.
Lemma many1_frame {A} (g : G A) : frame g -> frame (many1 g).
Proof. intros f ts l r [H Hl]. eapply Fr_imp; [|exact (many_frame g f _ _ _ H)]. intros x y Hx. split; assumption. Qed.
Lemma sep1_frame {A} s (g : G A) : frame g -> frame (sep1 s g).
Proof.
  intros f ts l r H. induction H as [ts a r H|ts a r1 r2 l r H1 H2 _ IH].
  - eapply Fr_imp; [|exact (f _ _ _ H)]. intros x y Hx. constructor; exact Hx.
  - eapply Fr_imp; [|exact (Fr_seq _ _ _ _ _ (f _ _ _ H1) (Fr_seq _ _ _ _ _ (Fr_terminal _ _ _ _ H2) IH))]. intros x y (z & Ha & z2 & Hb & Hc). econstructor; eassumption.
Qed.

(** turn the premises of a rule into [Fr] facts, chain them, and apply the rule again *)
Ltac ffacts := repeat match goal with
  | H : terminal _ _ _ _ |- _ => apply Fr_terminal in H
  | H : maybe _ _ _ |- _ => apply Fr_maybe in H
  end.
Ltac fchain := match goal with
  | |- Fr _ ?r ?r => apply Fr_refl
  | H : Fr _ ?ts _ |- Fr _ ?ts _ => eapply Fr_seq; [exact H|]; clear H; fchain
  end.
Ltac again := let x := fresh in let y := fresh in let H := fresh in intros x y H; cbv beta in H; repeat (match goal with H : exists _, _ /\ _ |- _ => destruct H as (? & ? & H); cbv beta in H end); cbv beta in *; subst; solve [econstructor; (eassumption || solve [eauto 2])].
Ltac by_frame := subst; ffacts; eapply Fr_imp; [|fchain]; again.
(** Use a lemma [L : frame g] on every premise of that form. *)
Ltac use L := repeat match goal with H : _ |- _ => apply L in H; cbv beta in H end.

(** a token that does not come next does not come next either in nice continuations *)
Lemma nice_no k lit r r' : lv = Any -> nice lv r r' -> (forall x, ~ terminal k lit r x) -> (k = KName \/ k = KPunct /\ (lit = B "[" \/ lit = B "]")) -> forall x, ~ terminal k lit r' x.
Proof.
  intros Hlv N H Hk x Hx. specialize (N Hlv). clear Hlv. inversion Hx; subst. destruct N as [(T1 & T2 & T3)|T]; [unfold face in *; cbn in *; destruct Hk as [->|[-> [->| ->]]]; congruence|].
  destruct r as [|[k0 lit0 l0 c0] r]; [contradiction|]. unfold fronts, face in T. cbn in T. injection T as <- <-. eapply H. constructor.
Qed.
Lemma g_type_frame : frame (g_type lv).
Proof.
  intros ts a r H. induction H as [ts n r H|ts n r1 r H1 H2|ts r1 t r2 r H1 H2 IH H3|ts r1 t r2 r3 r H1 H2 IH H3 H4|ts r L H N1 N2|ts r1 r2 t r L H1 H2 H3 IH N]; try (by_frame; fail).
  - apply Fr_terminal in H. destruct H as (p & E & Hp). exists p. split; [exact E|]. intros p' r' Ef Nc. eapply ty_open; [exact L|apply Hp; assumption|intros n; apply (nice_no KName n r r')|apply (nice_no KPunct (B "[") r r')]; auto.
  - apply Fr_terminal in H1, H2. destruct (Fr_seq _ _ _ _ _ H1 (Fr_seq _ _ _ _ _ H2 IH)) as (p & E & Hp). exists p. split; [exact E|]. intros p' r' Ef Nc.
    destruct (Hp p' r' Ef Nc) as (z1 & A1 & z2 & A2 & A3). eapply ty_open_list; [exact L|exact A1|exact A2|exact A3|apply (nice_no KPunct (B "]") r r'); auto].
Qed.
Lemma g_named_frame : frame (g_named lv).
Proof. intros ts a r H. inversion H; by_frame. Qed.
Lemma g_member_frame : frame (g_member lv).
Proof. intros ts a r H. inversion H; [by_frame|]. subst. use g_type_frame. eapply Fr_imp; [|fchain]. intros x y (z & Hz & ->). apply mb_any; assumption. Qed.

Section Frame.
Variable fok : bytes -> bool.

Fixpoint g_value_frame const ts v r (H : g_value fok lv const ts v r) {struct H} : Fr (fun x y => g_value fok lv const x v y) ts r
with g_ofield_frame const ts v r (H : g_ofield fok lv const ts v r) {struct H} : Fr (fun x y => g_ofield fok lv const x v y) ts r.
Proof.
  - destruct H as [ts r1 n r Hc H1 H2|ts lit z r H1 H2 H3|ts lit r H1 H2|ts s r H1|ts r H1|ts r H1|ts r H1|ts n r H1 N1 N2 N3|ts r1 l r2 r H1 H2 H3|ts r1 l r2 r H1 H2 H3].
    all: try (clear g_value_frame g_ofield_frame; by_frame).
    + pose proof (many_frame _ (g_value_frame const) _ _ _ H2) as H. clear H2 g_value_frame g_ofield_frame. by_frame.
    + pose proof (many_frame _ (g_ofield_frame const) _ _ _ H2) as H. clear H2 g_value_frame g_ofield_frame. by_frame.
  - destruct H as [ts n r1 r2 v r H1 H2 H3]. apply g_value_frame in H3. clear g_value_frame g_ofield_frame. by_frame.
Qed.
Lemma g_default_frame : frame (g_default fok lv).
Proof. intros ts a r H. inversion H; subst; use (g_value_frame true); by_frame. Qed.
Lemma g_arg_frame c : frame (g_arg fok lv c).
Proof. intros ts a r H. inversion H; subst; use (g_value_frame c); by_frame. Qed.
Lemma g_args_frame c : frame (g_args fok lv c).
Proof. intros ts a r H. inversion H; subst; use (many_frame _ (g_arg_frame c)); by_frame. Qed.
Lemma g_dir_frame c l : frame (g_dir fok lv c l).
Proof. intros ts a r H. inversion H; subst; use (g_args_frame c); by_frame. Qed.
Lemma g_dirs_frame c l : frame (g_dirs fok lv c l).
Proof. exact (many_frame _ (g_dir_frame c l)). Qed.
Ltac usedirs := repeat match goal with H : g_dirs _ _ _ _ _ _ _ |- _ => apply g_dirs_frame in H end.
Lemma g_cond_frame : frame (g_cond lv).
Proof. intros ts a r H. inversion H; subst; use g_named_frame; by_frame. Qed.
Lemma g_opt_cond_frame : frame (g_opt_cond lv).
Proof. intros ts a r H. inversion H; subst; use g_cond_frame; by_frame. Qed.
Lemma g_alias_frame : frame g_alias.
Proof. intros ts a r H. inversion H; by_frame. Qed.

Fixpoint g_sel_frame ts v r (H : g_sel fok lv ts v r) {struct H} : Fr (fun x y => g_sel fok lv x v y) ts r
with g_selset_frame ts v r (H : g_selset fok lv ts v r) {struct H} : Fr (fun x y => g_selset fok lv x v y) ts r
with g_opt_selset_frame ts v r (H : g_opt_selset fok lv ts v r) {struct H} : Fr (fun x y => g_opt_selset fok lv x v y) ts r.
Proof.
  - destruct H as [ts al n r1 args r2 ds r3 ss r H1 H2 H3 H4|ts r1 n r2 ds r H1 H2 Hn H3|ts r1 c r2 ds r3 ss r H1 H2 H3 H4].
    + apply g_opt_selset_frame in H4. clear g_sel_frame g_selset_frame g_opt_selset_frame. usedirs. use (g_args_frame false). use g_alias_frame. by_frame.
    + clear g_sel_frame g_selset_frame g_opt_selset_frame. usedirs. by_frame.
    + apply g_selset_frame in H4. clear g_sel_frame g_selset_frame g_opt_selset_frame. usedirs. use g_opt_cond_frame. subst; ffacts; eapply Fr_imp; [|fchain].
      intros x y (z1 & A1 & z2 & A2 & z3 & A3 & z4 & A4 & ->). eapply sel_inline; eassumption.
  - destruct H as [ts r1 ss r2 r H1 H2 Hn H3]. pose proof (many_frame _ g_sel_frame _ _ _ H2) as H. clear H2 g_sel_frame g_selset_frame g_opt_selset_frame. by_frame.
  - destruct H as [ts|ts ss r H1].
    + clear g_sel_frame g_selset_frame g_opt_selset_frame. by_frame.
    + apply g_selset_frame in H1. clear g_sel_frame g_selset_frame g_opt_selset_frame. eapply Fr_imp; [|exact H1]. intros x y Hx. apply os_some, Hx.
Qed.

Lemma g_vardef_frame : frame (g_vardef fok lv).
Proof. intros ts a r H. inversion H; subst; use g_type_frame; use g_default_frame; by_frame. Qed.
Lemma g_vardefs_frame : frame (g_vardefs fok lv).
Proof. intros ts a r H. inversion H; subst; use (many1_frame _ g_vardef_frame); by_frame. Qed.
Lemma g_opkind_frame : frame g_opkind.
Proof. intros ts a r H. inversion H; by_frame. Qed.
Lemma g_opt_name_frame : frame g_opt_name.
Proof. intros ts a r H. inversion H; by_frame. Qed.
Lemma g_op_frame : frame (g_op fok lv).
Proof.
  intros ts a r H. inversion H; subst; use g_selset_frame; usedirs; use g_vardefs_frame; use g_opt_name_frame; use g_opkind_frame; by_frame.
Qed.
Lemma g_frag_frame : frame (g_frag fok lv).
Proof. intros ts a r H. inversion H; subst; use g_selset_frame; usedirs; use g_cond_frame; by_frame. Qed.
Lemma g_desc_frame : frame g_desc.
Proof. intros ts a r H. inversion H; by_frame. Qed.
Lemma g_ivdef_frame l : frame (g_ivdef fok lv l).
Proof. intros ts a r H. inversion H; subst; use g_desc_frame; use g_type_frame; use g_default_frame; usedirs; by_frame. Qed.
Lemma g_argdefs_frame : frame (g_argdefs fok lv).
Proof. intros ts a r H. inversion H; subst; use (many1_frame _ (g_ivdef_frame LArgumentDefinition)); by_frame. Qed.
Lemma g_fielddef_frame : frame (g_fielddef fok lv).
Proof. intros ts a r H. inversion H; subst; use g_desc_frame; use g_type_frame; use g_argdefs_frame; usedirs; by_frame. Qed.
Lemma g_enumval_frame : frame (g_enumval fok lv).
Proof. intros ts a r H. inversion H; subst; use g_desc_frame; usedirs; by_frame. Qed.
Lemma g_block_frame {A} (g : G A) : frame g -> frame (g_block g).
Proof. intros f ts a r H. inversion H; subst; use (many1_frame _ f); by_frame. Qed.
Lemma g_implements_frame : frame (g_implements lv).
Proof. intros ts a r H. inversion H; subst; use (sep1_frame "&" _ g_member_frame); by_frame. Qed.
Lemma g_members_frame : frame (g_members lv).
Proof. intros ts a r H. inversion H; subst; use (sep1_frame "|" _ g_member_frame); by_frame. Qed.
Lemma g_tydef_frame d : frame (g_tydef fok lv d).
Proof.
  intros ts a r H. inversion H; subst; use g_implements_frame; use g_members_frame; use (g_block_frame _ g_fielddef_frame);
    use (g_block_frame _ g_enumval_frame); use (g_block_frame _ (g_ivdef_frame LInputFieldDefinition)); usedirs; by_frame.
Qed.
Lemma g_optype_frame : frame (g_optype lv).
Proof. intros ts a r H. inversion H; subst; use g_opkind_frame; use g_named_frame; by_frame. Qed.
Lemma g_schema_frame : frame (g_schema fok lv).
Proof. intros ts a r H. inversion H; subst; usedirs; use (many1_frame _ g_optype_frame); by_frame. Qed.
Lemma g_schemaext_frame : frame (g_schemaext fok lv).
Proof. intros ts a r H. inversion H; subst; usedirs; use (g_block_frame _ g_optype_frame); by_frame. Qed.
Lemma g_dirloc_frame : frame (g_dirloc lv).
Proof. intros ts a r H. inversion H; by_frame. Qed.
Lemma g_dirdef_frame d : frame (g_dirdef fok lv d).
Proof. intros ts a r H. inversion H; subst; use g_argdefs_frame; use (sep1_frame "|" _ g_dirloc_frame); by_frame. Qed.
Lemma g_body_frame : frame (g_body fok lv).
Proof.
  intros ts a r H. destruct H; use g_op_frame; use g_frag_frame; use g_schema_frame; use g_desc_frame;
    repeat match goal with H : g_tydef _ _ _ _ _ _ |- _ => apply g_tydef_frame in H end;
    repeat match goal with H : g_dirdef _ _ _ _ _ _ |- _ => apply g_dirdef_frame in H end; use g_schemaext_frame; ffacts; (eapply Fr_imp; [|fchain]);
    intros u v Hx; cbv beta in Hx; repeat (match goal with H : exists _, _ /\ _ |- _ => destruct H as (? & ? & H); cbv beta in H end); cbv beta in *; subst;
    [eapply b_op|eapply b_frag|eapply b_schema|eapply b_schema_desc|eapply b_type|eapply b_dir|eapply b_xschema|eapply b_xtype]; eassumption.
Qed.
End Frame.
End Framing.

(** ** Definitions: moved to other positions, and followed by something else *)
Section Move.
Variables (fok : bytes -> bool) (lv : level).
Variable Q : token -> token -> Prop.
Hypothesis Qface : forall t t', Q t t' -> face t' = face t.
(** A definition and the same definition elsewhere: their first tokens correspond. *)
Definition moved (d d' : definition) : Prop :=
  def_body d' = def_body d /\ exists t t', Q t t' /\ def_line d = tline t /\ def_col d = tcol t /\ def_line d' = tline t' /\ def_col d' = tcol t'.
Lemma Q_faces p p' : Forall2 Q p p' -> map face p' = map face p.
Proof. induction 1 as [|t t' p p' H _ IH]; cbn [map]; [reflexivity|]. rewrite IH, (Qface t t' H). reflexivity. Qed.
Lemma body_nonempty ts b r : g_body fok lv ts b r -> List.length r < List.length ts.
Proof.
  assert (T : forall k lit ts r, terminal k lit ts r -> List.length r < List.length ts) by (intros k lit ts0 r0 []; cbn; lia).
  assert (F : forall ts r R, Fr lv R ts r -> List.length r <= List.length ts) by (intros ts0 r0 R (p & -> & _); rewrite app_length; lia).
  assert (S : forall ts ss r, g_selset fok lv ts ss r -> List.length r < List.length ts).
  { intros ts0 ss r0 [ts1 r1 ss1 r2 r3 H1 H2 _ H3]. apply T in H1, H3. apply (many_frame lv _ (g_sel_frame lv fok)), F in H2. lia. }
  assert (D : forall ts d r, g_desc ts d r -> List.length r <= List.length ts) by (intros ts0 d r0 H; eapply F, (g_desc_frame lv _ _ _ H)).
  assert (Y : forall d ts t r, g_tydef fok lv d ts t r -> List.length r < List.length ts).
  { intros d ts0 t r0 H. destruct H;
      repeat match goal with
      | H : terminal _ _ _ _ |- _ => apply T in H
      | H : g_dirs _ _ _ _ _ _ _ |- _ => apply g_dirs_frame, F in H
      | H : g_implements _ _ _ _ |- _ => apply g_implements_frame, F in H
      | H : g_members _ _ _ _ |- _ => apply g_members_frame, F in H
      | H : g_block (g_fielddef _ _) _ _ _ |- _ => apply (g_block_frame lv _ (g_fielddef_frame lv fok)), F in H
      | H : g_block (g_enumval _ _) _ _ _ |- _ => apply (g_block_frame lv _ (g_enumval_frame lv fok)), F in H
      | H : g_block (g_ivdef _ _ _) _ _ _ |- _ => apply (g_block_frame lv _ (g_ivdef_frame lv fok _)), F in H
      end; lia. }
  assert (Sc : forall ts s r, g_schema fok lv ts s r -> List.length r < List.length ts).
  { intros ts0 s r0 [ts1 r1 ds r2 r3 ops r4 r5 H1 H2 H3 H4 H5]. apply T in H1, H3, H5. apply g_dirs_frame, F in H2. apply (many1_frame lv _ (g_optype_frame lv)), F in H4. lia. }
  intros H. destruct H as [ts o r H|ts f r H|ts s r H|ts r1 s r _ H1 H|ts d r1 t r H1 H|ts d r1 x r H1 H|ts r1 s r H1 H|ts r1 t r H1 H _].
  - destruct H as [ts ss r H|ts k r1 n r2 vs r3 ds r4 ss r H1 H2 H3 H4 H5]; [eapply S, H|]. apply S in H5. apply g_dirs_frame, F in H4. apply g_vardefs_frame, F in H3. apply (g_opt_name_frame lv), F in H2. apply (g_opkind_frame lv), F in H1. lia.
  - destruct H as [ts r1 n r2 c r3 ds r4 ss r H1 H2 _ H3 H4 H5]. apply T in H1, H2. apply S in H5. apply g_dirs_frame, F in H4. apply g_cond_frame, F in H3. lia.
  - eapply Sc, H.
  - apply T in H1. apply Sc in H. lia.
  - apply D in H1. apply Y in H. lia.
  - apply D in H1. apply g_dirdef_frame in H. destruct H as ([|a p] & -> & H); [|cbn in *; rewrite app_length in *; lia]. exfalso. specialize (H [] [] eq_refl (fun _ => or_introl I)). cbn in H. inversion H; subst. match goal with H : terminal _ _ [] _ |- _ => inversion H end.
  - apply T in H1. apply g_schemaext_frame, F in H. lia.
  - apply T in H1. apply Y in H. lia.
Qed.
Lemma g_def_move ts d r : g_def fok lv ts d r -> exists p, ts = p ++ r /\ p <> [] /\ forall p' r', Forall2 Q p p' -> nice lv r r' -> exists d', g_def fok lv (p' ++ r') d' r' /\ moved d d'.
Proof.
  intros [t ts0 b r0 H]. pose proof (body_nonempty _ _ _ H) as Hl. destruct (g_body_frame _ _ _ _ _ H) as (p & E & Hp). exists p. split; [exact E|].
  destruct p as [|t0 p]; [cbn in E; rewrite E in Hl; lia|]. split; [discriminate|]. cbn in E. injection E as <- E. intros p' r' HQ Nc. inversion HQ as [|? t' ? p1 HQ1 HQ2]; subst.
  specialize (Hp (t' :: p1) r' (Q_faces _ _ HQ) Nc). cbn [app] in *. exists (mkDef (tline t') (tcol t') b). split; [constructor; exact Hp|]. split; [reflexivity|]. exists t, t'. cbn. auto.
Qed.
Definition open_end (ds : list definition) : Prop := match List.rev ds with d :: _ => block_omitted (def_body d) | [] => False end.
Lemma open_end_cons d ds : ds <> [] -> open_end (d :: ds) = open_end ds.
Proof. intros H. unfold open_end. cbn [List.rev]. destruct (List.rev ds) eqn:E; [|reflexivity]. exfalso. apply H. apply (f_equal (@List.rev definition)) in E. rewrite rev_involutive in E. exact E. Qed.
Lemma g_defs_nonempty ts ds r : g_defs fok lv ts ds r -> ds <> [].
Proof. intros []; discriminate. Qed.
Lemma brace_head ts : (exists r', pun "{" ts r') <-> exists t ts', ts = t :: ts' /\ face t = (KPunct, B "{").
Proof.
  split; [intros (r' & []); eexists _, _; split; [reflexivity|]; reflexivity|]. intros ([k li l c] & ts' & -> & E). unfold face in E. cbn in E. injection E as -> ->. exists ts'. constructor.
Qed.
Lemma g_defs_move ts ds r : g_defs fok lv ts ds r -> exists p, ts = p ++ r /\ p <> [] /\ forall p' r', Forall2 Q p p' -> nice lv r r' -> (open_end ds -> ~ exists x, pun "{" r' x) ->
  exists ds', g_defs fok lv (p' ++ r') ds' r' /\ Forall2 moved ds ds'.
Proof.
  induction 1 as [ts d r H Hlm|ts d r1 l r H Hlm Hl IH].
  - destruct (g_def_move _ _ _ H) as (p & E & Hne & Hp). exists p. split; [exact E|]. split; [exact Hne|]. intros p' r' HQ Nc Ho. destruct (Hp p' r' HQ Nc) as (d' & Hd' & Hm).
    exists [d']. split; [|constructor; [exact Hm|constructor]]. apply ds_one; [exact Hd'|]. unfold longest_match. destruct Hm as [-> _]. exact Ho.
  - destruct (g_def_move _ _ _ H) as (p & -> & Hne & Hp). destruct IH as (p2 & -> & Hne2 & Hp2). exists (p ++ p2). split; [apply app_assoc|].
    split; [intros E; apply app_eq_nil in E; destruct E; contradiction|]. intros p' r' HQ Nc Ho. apply Forall2_app_inv_l in HQ. destruct HQ as (q & q2 & Hq & Hq2 & ->).
    rewrite (open_end_cons _ _ (g_defs_nonempty _ _ _ Hl)) in Ho. destruct (Hp2 q2 r' Hq2 Nc Ho) as (l' & Hl' & Hml). assert (Nc2 : nice lv (p2 ++ r) (q2 ++ r')) by (intros _; right; destruct Hq2 as [|u u' ? ? HQu]; [congruence|cbn; apply Qface, HQu]). destruct (Hp q (q2 ++ r') Hq Nc2) as (d' & Hd' & Hm).
    rewrite <- app_assoc. exists (d' :: l'). split; [|constructor; assumption]. eapply ds_more; [exact Hd'| |exact Hl'].
    unfold longest_match in *. destruct Hm as [-> _]. intros Hb Hx. apply (Hlm Hb). apply brace_head. apply brace_head in Hx. destruct Hx as (t & ts' & E & Ef).
    destruct p2 as [|u p2]; [congruence|]. inversion Hq2 as [|? u' ? ? HQu]; subst. cbn in E. injection E as -> _. exists u, (p2 ++ r). split; [reflexivity|]. rewrite <- Ef. symmetry. apply Qface, HQu.
Qed.
End Move.
