(** * DumpGrammar: each construct that survives is printed as a text that derives it again (for the proof of C15). *)
From Verif Require Import Base Utf8 Utf8Proofs Lexer LexSpec LexAgree AST Grammar GrammarProps ParserSound.
From Verif Require Import Dumper DumpSpec DumpText DumpWords DumpBlocks DumpProofs.

Create HintDb sf.
#[export] Hint Resolve many_suffix many1_suffix sep1_suffix g_type_suffix g_named_suffix g_member_suffix g_value_suffix g_ofield_suffix
  g_default_suffix g_arg_suffix g_args_suffix g_dir_suffix g_dirs_suffix g_cond_suffix g_opt_cond_suffix g_alias_suffix g_sel_suffix
  g_selset_suffix g_opt_selset_suffix g_vardef_suffix g_vardefs_suffix g_opkind_suffix g_opt_name_suffix g_op_suffix g_frag_suffix
  g_desc_suffix g_ivdef_suffix g_argdefs_suffix g_fielddef_suffix g_enumval_suffix g_block_suffix g_implements_suffix g_members_suffix
  g_tydef_suffix g_optype_suffix g_schema_suffix g_schemaext_suffix g_dirloc_suffix g_dirdef_suffix g_body_suffix g_def_suffix : sf.
Lemma sfx_propers {A} (g : G A) ts a r : g ts a r -> propers ts -> sfx g -> propers r.
Proof. intros H Hp Hs. eapply propers_suffix; [eapply Hs, H|exact Hp]. Qed.
Lemma value_sfx fok lv c : sfx (g_value fok lv c). Proof. exact (g_value_suffix fok lv c). Qed.
Lemma ofield_sfx fok lv c : sfx (g_ofield fok lv c). Proof. exact (g_ofield_suffix fok lv c). Qed.
Lemma sel_sfx fok lv : sfx (g_sel fok lv). Proof. exact (g_sel_suffix fok lv). Qed.
Lemma selset_sfx fok lv : sfx (g_selset fok lv). Proof. exact (g_selset_suffix fok lv). Qed.
Lemma opt_selset_sfx fok lv : sfx (g_opt_selset fok lv). Proof. exact (g_opt_selset_suffix fok lv). Qed.
#[export] Hint Resolve value_sfx ofield_sfx sel_sfx selset_sfx opt_selset_sfx : sf.
Ltac pps := repeat match goal with
  | Hp : propers ?ts, H : terminal _ _ ?ts ?r |- _ =>
      lazymatch goal with _ : propers r |- _ => fail | _ => idtac end; assert (propers r) by (eapply propers_suffix; [eapply terminal_suffix, H|exact Hp])
  | Hp : propers ?ts, H : maybe _ ?ts ?r |- _ =>
      lazymatch goal with _ : propers r |- _ => fail | _ => idtac end; assert (propers r) by (eapply propers_suffix; [eapply maybe_suffix, H|exact Hp])
  | Hp : propers ?ts, H : ?g ?ts ?a ?r |- _ =>
      lazymatch goal with _ : propers r |- _ => fail | _ => idtac end; assert (propers r) by (refine (sfx_propers g ts a r H Hp _); solve [auto with sf])
  end.
Ltac nm := match goal with H : name ?n _ _ |- pr _ _ (wr ?n) _ => apply (pr_name n); eapply name_proper; [exact H|assumption] end.

Lemma has_lf v : scalars v -> existsb (Ascii.eqb LF) (utf8s v) = true <-> In 10%Z v.
Proof.
  intros Hs. induction v as [|c v IH]; [cbn; intuition congruence|]. inv Hs. rewrite utf8s_cons, existsb_app, orb_true_iff, (IH H2). cbn [In].
  destruct (utf8_first c H1) as (b & t & E & L & Hh). rewrite E. split; (intros [Hc|Hc]; [|right; exact Hc]).
  - left. destruct (Z_lt_dec c 128) as [Lt|Ge].
    + destruct (L Lt) as [E1 ->]. cbn [existsb] in Hc. rewrite orb_false_r in Hc. apply Ascii.eqb_eq in Hc. subst b. rewrite <- E1. reflexivity.
    + specialize (Hh ltac:(lia)). exfalso. apply existsb_exists in Hc as (x & Hx & Ex). apply Ascii.eqb_eq in Ex. subst x. rewrite Forall_forall in Hh.
      specialize (Hh _ Hx). revert Hh. vm_compute. congruence.
  - left. subst c. destruct (L ltac:(lia)) as [E1 ->]. cbn [existsb]. apply orb_true_iff. left. apply Ascii.eqb_eq. apply zb_inj. rewrite E1. reflexivity.
Qed.
Lemma wr_text b k w lit : word k w lit -> b = utf8s w -> pr (terminal k lit) false (wr b) true.
Proof. intros H ->. apply pr_word. exact H. Qed.
Lemma wr_word_eq o k w lit : o = wr (utf8s w) -> word k w lit -> pr (terminal k lit) false o true.
Proof. intros -> H. apply pr_word. exact H. Qed.
Lemma wfori_ext_in {A} (f g : nat -> A -> W) l : forall i, (forall j x, i <= j < i + List.length l -> f j x = g j x) -> wfori f i l = wfori g i l.
Proof.
  induction l as [|x l IH]; intros i H; [reflexivity|]. cbn [wfori List.length] in *. rewrite H by lia. f_equal. apply IH. intros j y Hj. apply H. lia.
Qed.
Lemma join_print n ls : ls <> [] ->
  wfor (fun i line => indent n +++ wr indentation +++ wr line +++ wwhen (negb (Nat.eqb i (List.length (map utf8s ls) - 1))) wlf) (map utf8s ls)
  = wr (utf8s (indented (2 * n + 2) ls)).
Proof.
  intros Hne. transitivity (wfor (fun i line => (indent n +++ wr indentation +++ wr line) +++ wwhen (Nat.ltb i (List.length (map utf8s ls) - 1)) wlf) (map utf8s ls)).
  { apply wfori_ext_in. intros j x Hj. rewrite !wseq_assoc. do 4 f_equal. destruct (Nat.eqb_spec j (List.length (map utf8s ls) - 1)); destruct (Nat.ltb_spec j (List.length (map utf8s ls) - 1)); cbn; lia || reflexivity. }
  rewrite (wfor_after (fun line => indent n +++ wr indentation +++ wr line)). induction ls as [|l ls IH]; [congruence|].
  assert (E : indent n +++ wr indentation +++ wr (utf8s l) = wr (utf8s (sp (2 * n + 2) ++ l))).
  { unfold indent, wr. cbn [wseq]. rewrite app_assoc. replace (repeats indentation n ++ indentation) with (repeats indentation (S n)).
    - rewrite repeats_sp, utf8s_app. do 4 f_equal. lia.
    - clear. induction n as [|n IHn]; [reflexivity|]. change (repeats indentation (S (S n))) with (indentation ++ repeats indentation (S n)). rewrite IHn at 1. reflexivity. }
  destruct ls as [|l' ls].
  - cbn [map joinW]. rewrite E. reflexivity.
  - change (joinW wlf (map (fun line => indent n +++ wr indentation +++ wr line) (map utf8s (l :: l' :: ls))))
      with ((indent n +++ wr indentation +++ wr (utf8s l)) +++ wlf +++ joinW wlf (map (fun line => indent n +++ wr indentation +++ wr line) (map utf8s (l' :: ls)))).
    rewrite IH by discriminate. rewrite E. unfold indented. rewrite join_cons. rewrite (utf8s_app _ (10%Z :: _)), utf8s_cons. reflexivity.
Qed.
Lemma wr_app a b : wr a +++ wr b = wr (a ++ b). Proof. reflexivity. Qed.
Lemma pr_string depth s : string_survives s -> pr (terminal KString s) false (dumpString depth s) true.
Proof.
  intros (v & -> & H1 & H2). unfold dumpString. destruct (in_dec Z.eq_dec 10%Z v) as [Hin|Hn].
  - destruct (H1 Hin) as [Hb Hq]. pose proof Hb as (Hc & _). assert (Hs : scalars v) by (eapply Forall_impl; [|exact Hc]; cbn; tauto).
    assert (Hcr : noCR v) by (eapply Forall_impl; [|exact Hc]; cbn; lia). rewrite (proj2 (has_lf v Hs) Hin).
    rewrite escape_block_text, strings_split_eq by exact Hs.
    assert (Hs' : scalars (rep v)) by (apply rep_chars; [unfold scalar; lia|unfold scalar; lia|exact Hs]).
    assert (Hcr' : noCR (rep v)) by (apply rep_chars; [lia|lia|exact Hcr]).
    rewrite split_lf_text by assumption. destruct (lines_join v Hcr) as [Ej Ft]. pose proof (lines_nonempty v [] Hcr) as Hne.
    replace (lines_of (rep v) []) with (map rep (lines_of v [])).
    2:{ rewrite <- Ej at 2. rewrite rep_join. symmetry. apply lines_of_join; [intros E; apply map_eq_nil in E; contradiction|].
        apply Forall_forall. intros x X. apply in_map_iff in X as (l & <- & Hl). rewrite Forall_forall in Ft. destruct (Ft l Hl) as [F1 F2]. split.
        - assert (F : Forall (fun c => c <> 10)%Z (rep l)). { apply rep_chars; [lia|lia|]. apply Forall_forall. intros c C ->. contradiction. }
          intros Hx. rewrite Forall_forall in F. exact (F _ Hx eq_refl).
        - apply rep_chars; [lia|lia|exact F2]. }
    rewrite join_print by (intros E; apply map_eq_nil in E; contradiction).
    eapply (wr_word_eq _ KString (block_text (2 * depth + 2) (2 * depth) v)).
    + unfold block_text, indent. rewrite repeats_sp, !utf8s_app, utf8s_cons, !utf8s_app, utf8s_cons. rewrite <- !app_assoc. reflexivity.
    + apply block_word; [exact Hb|exact Hq|apply stable_nonzero; exact Hb].
  - specialize (H2 Hn). assert (Hs : scalars v) by (eapply Forall_impl; [|exact H2]; cbn; tauto).
    destruct (existsb (Ascii.eqb LF) (utf8s v)) eqn:E; [exfalso; apply Hn, (has_lf v Hs), E|]. rewrite escape_text by exact Hs.
    eapply (wr_word_eq _ KString (34%Z :: flat_map esc_cp v ++ [34%Z])); [|apply quoted_word; exact H2].
    rewrite utf8s_cons, utf8s_app. reflexivity.
Qed.

Section Constructs.
Variable fg : bytes -> bytes.
Variable fok : bytes -> bool.
Notation Ln := Lenient.
Lemma lenient_Lenient : lenient Ln. Proof. discriminate. Qed.
Hint Resolve lenient_Lenient : core.
Definition prints {A} (g : G A) (survives : A -> Prop) b (dump : A -> W) b' : Prop :=
  forall ts a r, g ts a r -> propers ts -> survives a -> pr (gr g a) b (dump a) b'.

Lemma prints_in {A} (g : G A) (S : A -> Prop) b f b' ts l r : sfx g -> many g ts l r -> propers ts -> Forall S l -> prints g S b f b' ->
  forall x, In x l -> pr (gr g x) b (f x) b'.
Proof.
  intros Hs H Hp HF P x Hx. destruct (many_items g ts l r Hs H Hp x Hx) as (ts' & r' & Hg & Hp'). eapply P; [exact Hg|exact Hp'|]. rewrite Forall_forall in HF. auto.
Qed.

(** ** Values *)
Lemma pr_value depth c v : forall ts r, g_value fok Ln c ts v r -> propers ts -> value_survives fg v -> pr (gr (g_value fok Ln c) v) false (dumpValue fg depth v) true.
Proof.
  induction v as [n|z|l|s|b| |n|l IH|fs IH] using value_nest; intros ts r H Hp Hv; cbn [dumpValue].
  - inv H. pps. eapply pr_imp; [eapply pr_seq; [apply pr_dollar|nm]|]. intros ts9 r9 (m & A1 & A2). econstructor; eauto.
  - inv H. destruct (int_word z) as (w & E & Hw & Hd). eapply pr_imp; [apply (wr_word_eq _ _ _ _ (f_equal wr E) Hw)|]. intros ts9 r9 A. econstructor; eauto.
  - inv H. inv Hv. match goal with H : terminal KFloat _ _ _ |- _ => pose proof (float_proper _ _ _ H Hp) as Hf end.
    destruct (float_word l Hf) as (w & E & Hw). eapply pr_imp; [eapply (wr_word_eq _ KFloat w l); [congruence|exact Hw]|]. intros ts9 r9 A. econstructor; eauto.
  - inv H. inv Hv. eapply pr_imp; [apply pr_string; assumption|]. intros ts9 r9 A. econstructor; eauto.
  - destruct b; (eapply pr_imp; [apply pr_kw; [reflexivity|discriminate]|]; intros ts9 r9 A; constructor; exact A).
  - eapply pr_imp; [apply pr_kw; [reflexivity|discriminate]|]. intros ts9 r9 A; constructor; exact A.
  - inv H. eapply pr_imp; [nm|]. intros ts9 r9 A. constructor; auto.
  - inv H. inv Hv. pps. rewrite (wfor_after (dumpValue fg depth) (ws ", ") l).
    eapply pr_imp; [eapply pr_seq; [apply pr_lbra|eapply pr_seq; [apply (pr_many (g_value fok Ln c)); [apply pr_comma|]|apply pr_end, pr_rbra]]|].
    + intros x Hx. destruct (many_items _ _ _ _ (value_sfx fok Ln c) ltac:(eassumption) ltac:(assumption) x Hx) as (ts' & r' & Hg & Hp').
      rewrite Forall_forall in *. eapply IH; eauto.
    + intros ts9 r9 (m1 & A1 & m2 & A2 & A3). econstructor; eauto.
  - inv H. inv Hv. pps.
    replace (wfor _ fs) with (joinW (ws ", ") (map (fun f => wr (fst f) +++ ws ": " +++ dumpValue fg depth (snd f)) fs)).
    2:{ rewrite <- (wfor_after (fun f => wr (fst f) +++ ws ": " +++ dumpValue fg depth (snd f))). apply wfori_ext. intros i x. rewrite !wseq_assoc. reflexivity. }
    eapply pr_imp; [eapply pr_seq; [apply pr_lcursp|eapply pr_seq; [apply (pr_many (g_ofield fok Ln c)); [apply pr_comma|]|apply pr_end, pr_sprcur]]|].
    + intros x Hx. destruct (many_items _ _ _ _ (ofield_sfx fok Ln c) ltac:(eassumption) ltac:(assumption) x Hx) as (ts' & r' & Hg & Hp').
      rewrite Forall_forall in IH. pose proof (IH _ Hx) as IHv. assert (Sv : value_survives fg (snd x)) by (match goal with H : Forall _ fs |- _ => rewrite Forall_forall in H; exact (H _ Hx) end). inv Hg. pps. cbn [fst snd] in *.
      eapply pr_imp; [eapply pr_seq; [nm|eapply pr_seq; [apply pr_colonsp|eapply IHv; eauto]]|].
      intros ts9 r9 (m1 & A1 & m2 & A2 & A3). econstructor; eauto.
    + intros ts9 r9 (m1 & A1 & m2 & A2 & A3). econstructor; eauto.
Qed.
Lemma pr_default ts d r : g_default fok Ln ts d r -> propers ts -> default_survives fg d ->
  pr (gr (g_default fok Ln) d) true (match d with Some v => ws " = " +++ dumpValue fg 0 v | None => wskip end) true.
Proof.
  intros H Hp Hs. inv H.
  - eapply pr_imp; [apply pr_skip|]. intros ts9 r9 <-. constructor.
  - pps. eapply pr_imp; [eapply pr_seq; [apply pr_eqsp|eapply pr_value; eauto]|]. intros ts9 r9 (m & A1 & A2). econstructor; eauto.
Qed.

(** ** Arguments and directives *)
Lemma pr_arg depth c : prints (g_arg fok Ln c) (fun a => value_survives fg (arg_value a)) false (dumpArgument fg depth) true.
Proof.
  intros ts a r H Hp Hs. inv H. pps. unfold dumpArgument. cbn [arg_name arg_value] in *. eapply pr_imp; [eapply pr_seq; [nm|eapply pr_seq; [apply pr_colonsp|eapply pr_value; eauto]]|].
  intros ts9 r9 (m1 & A1 & m2 & A2 & A3). econstructor; eauto.
Qed.
Lemma pr_args depth c : prints (g_args fok Ln c) (args_survive fg) true (dumpArguments fg depth) true.
Proof.
  intros ts l r H Hp Hs. unfold dumpArguments. destruct (Nat.eqb_spec (List.length l) 0) as [E|E].
  - destruct l; [|discriminate]. eapply pr_imp; [apply pr_skip|]. intros ts9 r9 <-. constructor.
  - inv H; [contradiction|]. pps. rewrite (wfor_after (dumpArgument fg depth)).
    eapply pr_imp; [eapply pr_seq; [apply pr_lpar|eapply pr_seq; [apply (pr_many (g_arg fok Ln c)); [apply pr_comma|]|apply pr_end, pr_rpar]]|].
    + eapply prints_in; [|eassumption|assumption|exact Hs|apply pr_arg]. auto with sf.
    + intros ts9 r9 (m1 & A1 & m2 & A2 & A3). econstructor; eauto.
Qed.
Lemma pr_dir depth c loc : prints (g_dir fok Ln c loc) (fun d => args_survive fg (d_args d)) false (dumpDirective fg depth) true.
Proof.
  intros ts a r H Hp Hs. inv H. pps. unfold dumpDirective. cbn [d_name d_args] in *.
  eapply pr_imp; [eapply pr_seq; [apply pr_at|eapply pr_seq; [nm|eapply pr_args; eauto]]|].
  intros ts9 r9 (m1 & A1 & m2 & A2 & A3). econstructor; eauto.
Qed.
Lemma pr_dirs depth c loc : prints (g_dirs fok Ln c loc) (dirs_survive fg) true (dumpOptDirectives fg depth) true.
Proof.
  intros ts l r H Hp Hs. unfold dumpOptDirectives, g_dirs in *. destruct l as [|x l].
  - eapply pr_imp; [apply pr_skip|]. intros ts9 r9 <-. constructor.
  - cbn [nonnil wwhen]. unfold dumpDirectives. rewrite (wfor_before (fun i => negb (Nat.eqb i 0))) by reflexivity.
    eapply pr_seq_l; [apply pr_sp|]. apply pr_many; [apply pr_sp|]. eapply prints_in; [|eassumption|assumption|exact Hs|apply pr_dir]. auto with sf.
Qed.

(** ** Types *)
Lemma pr_type : prints (g_type Ln) has_items false dumpType true.
Proof.
  intros ts t r H Hp Hi. revert ts r H Hp. induction Hi as [n nn|t nn Hi IH]; intros ts r H Hp; cbn [dumpType].
  - inv H; pps; cbn [wwhen].
    + rewrite wseq_skip_r. eapply pr_imp; [nm|]. intros ts9 r9 A. constructor; auto.
    + eapply pr_imp; [eapply pr_seq; [nm|apply pr_end, pr_bang]|]. intros ts9 r9 (m & A1 & A2). econstructor; eauto.
  - inv H; pps; cbn [wwhen].
    + rewrite wseq_skip_r. eapply pr_imp; [eapply pr_seq; [apply pr_lbra|eapply pr_seq; [eapply IH; eauto|apply pr_end, pr_rbra]]|].
      intros ts9 r9 (m1 & A1 & m2 & A2 & A3). econstructor; eauto.
    + eapply pr_imp; [eapply pr_seq; [apply pr_lbra|eapply pr_seq; [eapply IH; eauto|eapply pr_seq; [apply pr_rbra|apply pr_end, pr_bang]]]|].
      intros ts9 r9 (m1 & A1 & m2 & A2 & m3 & A3 & A4). econstructor; eauto.
Qed.
Lemma pr_unlisted : prints (g_type Ln) unlisted false (fun t => wr (named_type t) +++ wwhen (non_nullable t) (ws "!")) true.
Proof.
  intros ts t r H Hp (n & nn & ->). exact (pr_type ts _ r H Hp (hi_named n nn)).
Qed.
Lemma pr_named : prints (g_named Ln) (fun _ => True) false dumpType true.
Proof.
  intros ts t r H Hp _. inv H; pps; cbn [dumpType wwhen].
  - rewrite wseq_skip_r. eapply pr_imp; [nm|]. intros ts9 r9 A. constructor; auto.
  - eapply pr_imp; [eapply pr_seq; [nm|apply pr_end, pr_bang]|]. intros ts9 r9 (m & A1 & A2). eapply nm_bang; eauto.
Qed.
Lemma pr_bare_named : prints (g_named Ln) bare false (fun t => wr (named_type t)) true.
Proof.
  intros ts t r H Hp (n & ->). inv H. cbn [named_type]. eapply pr_imp; [nm|]. intros ts9 r9 A. constructor; auto.
Qed.
Lemma pr_member : prints (g_member Ln) bare false (fun t => wr (named_type t)) true.
Proof.
  intros ts t r H Hp (n & ->). assert (Hn : is_name n).
  { inv H; [eapply name_proper; eauto|]. match goal with H : g_type _ _ _ _ |- _ => inv H end. eapply name_proper; eauto. }
  cbn [named_type]. eapply pr_imp; [apply pr_name; exact Hn|]. intros ts9 r9 A. constructor; auto.
Qed.

(** ** Selections *)
Lemma dump_field depth al n args ds ss : dumpSelection fg depth (SField al n args ds ss)
  = indent (S depth) +++ wwhen (nonnil al) (wr al +++ ws ": ") +++ wr n +++ dumpArguments fg (S depth) args
    +++ dumpOptDirectives fg (S depth) ds +++ wwhen (nonnil ss) (ws " " +++ dumpSelections fg (S depth) ss).
Proof. reflexivity. Qed.
Lemma dump_inline depth c ds ss : dumpSelection fg depth (SInline c ds ss)
  = indent (S depth) +++ ws "..." +++ match c with Some t => ws " " +++ ws "on" +++ ws " " +++ wr (named_type t) | None => wskip end
    +++ dumpOptDirectives fg (S depth) ds +++ ws " " +++ dumpSelections fg (S depth) ss.
Proof. reflexivity. Qed.
Lemma pr_selset_of depth ts ss r : many (g_sel fok Ln) ts ss r -> ss <> [] -> propers ts ->
  (forall x, In x ss -> forall ts r, g_sel fok Ln ts x r -> propers ts -> pr (gr (g_sel fok Ln) x) false (dumpSelection fg depth x) true) ->
  pr (gr (g_selset fok Ln) ss) true (dumpSelections fg depth ss) true.
Proof.
  intros H Hne Hp HI. unfold dumpSelections.
  eapply pr_imp; [eapply pr_seq; [apply pr_lcur|eapply pr_seq_l; [apply pr_lf|eapply pr_seq; [apply (pr_many_lf (g_sel fok Ln))|eapply pr_seq_l; [apply pr_indent|apply pr_end, pr_rcur]]]]|].
  - intros x Hx. destruct (many_items _ _ _ _ (sel_sfx fok Ln) H Hp x Hx) as (ts' & r' & Hg & Hp'). eapply HI; eauto.
  - intros ts9 r9 (m1 & A1 & m2 & A2 & A3). econstructor; eauto.
Qed.
Lemma pr_alias ts al n r : g_alias ts (al, n) r -> propers ts -> pr (gr g_alias (al, n)) false (wwhen (nonnil al) (wr al +++ ws ": ") +++ wr n) true.
Proof.
  intros H Hp. inv H; pps.
  - cbn [nonnil wwhen]. rewrite wseq_skip_l. eapply pr_imp; [nm|]. intros ts9 r9 A. constructor; auto.
  - assert (Ha : is_name al) by (eapply name_proper; eauto). destruct al as [|a al]; [destruct Ha as (c & w & E & _); rewrite utf8s_cons in E; destruct (utf8 c) eqn:U; [exfalso; eapply utf8_nonempty, U|discriminate]|].
    cbn [nonnil wwhen]. rewrite wseq_assoc. eapply pr_imp; [eapply pr_seq; [nm|eapply pr_seq; [apply pr_colonsp|nm]]|].
    intros ts9 r9 (m1 & A1 & m2 & A2 & A3). econstructor; eauto.
Qed.
Lemma pr_cond ts t r : g_cond Ln ts t r -> propers ts -> bare t -> pr (gr (g_cond Ln) t) true (ws " " +++ ws "on" +++ ws " " +++ wr (named_type t)) true.
Proof.
  intros H Hp Hb. inv H. pps. eapply pr_imp; [eapply pr_seq_l; [apply pr_sp|eapply pr_seq; [apply pr_kw; [reflexivity|discriminate]|eapply pr_seq_l; [apply pr_sp|eapply pr_bare_named; eauto]]]|].
  intros ts9 r9 (m1 & A1 & A2). econstructor; eauto.
Qed.
Lemma pr_sel s : forall depth ts r, g_sel fok Ln ts s r -> propers ts -> sel_survives fg s -> pr (gr (g_sel fok Ln) s) false (dumpSelection fg depth s) true.
Proof.
  induction s as [al n args ds ss IH|n ds|c ds ss IH] using selection_nest; intros depth ts r H Hp Hs.
  - inv H. inv Hs. pps. rewrite dump_field. eapply pr_imp.
    + eapply pr_seq_l; [apply pr_indent|]. rewrite <- wseq_assoc. eapply pr_seq; [eapply pr_alias; eauto|]. eapply pr_seq; [eapply pr_args; eauto|].
      eapply pr_seq; [eapply pr_dirs; eauto|]. instantiate (1 := gr (g_opt_selset fok Ln) ss). destruct ss as [|x ss].
      * eapply pr_imp; [apply pr_skip|]. intros ts9 r9 <-. constructor.
      * cbn [nonnil wwhen]. eapply pr_seq_l; [apply pr_sp|]. apply pr_start.
        match goal with H : g_opt_selset _ _ _ _ _ |- _ => inv H end. match goal with H : g_selset _ _ _ _ _ |- _ => inv H end. pps.
        eapply pr_imp; [eapply pr_selset_of; [eassumption|assumption|assumption|]|intros ts9 r9 A; constructor; exact A].
        intros y Hy ts' r' Hg Hp'. rewrite Forall_forall in *. eapply IH; eauto.
    + intros ts9 r9 (m1 & A1 & m2 & A2 & m3 & A3 & A4). econstructor; eauto.
  - inv H. inv Hs. pps. cbn [dumpSelection]. eapply pr_imp.
    + eapply pr_seq_l; [apply pr_indent|]. eapply pr_seq; [apply pr_spread|]. eapply pr_seq; [nm|]. eapply pr_dirs; eauto.
    + intros ts9 r9 (m1 & A1 & m2 & A2 & A3). econstructor; eauto.
  - inv H. inv Hs. pps. rewrite dump_inline. eapply pr_imp.
    + eapply pr_seq_l; [apply pr_indent|]. eapply pr_seq; [apply pr_spread|]. eapply pr_seq.
      * instantiate (1 := true). instantiate (1 := gr (g_opt_cond Ln) c). destruct c as [t|].
        -- match goal with H : g_opt_cond _ _ _ _ |- _ => inv H end. apply pr_start. eapply pr_imp; [eapply pr_cond; eauto|]. intros ts9 r9 A. constructor; exact A.
        -- apply pr_end. eapply pr_imp; [apply pr_skip|]. intros ts9 r9 <-. constructor.
      * eapply pr_seq; [eapply pr_dirs; eauto|]. eapply pr_seq_l; [apply pr_sp|]. apply pr_start. match goal with H : g_selset _ _ _ _ _ |- _ => inv H end. pps.
        eapply pr_selset_of; [eassumption|assumption|assumption|]. intros y Hy ts' r' Hg Hp'. rewrite Forall_forall in *. eapply IH; eauto.
    + intros ts9 r9 (m1 & A1 & m2 & A2 & m3 & A3 & A4). econstructor; eauto.
Qed.
Lemma pr_selset depth : prints (g_selset fok Ln) (Forall (sel_survives fg)) true (dumpSelections fg depth) true.
Proof.
  intros ts ss r H Hp Hs. inv H. pps. eapply pr_selset_of; [eassumption|assumption|assumption|]. intros x Hx ts' r' Hg Hp'. eapply pr_sel; eauto. rewrite Forall_forall in Hs. auto.
Qed.

(** ** Operations and fragments *)
Lemma pr_vardef : prints (g_vardef fok Ln) (fun v => has_items (v_type v) /\ default_survives fg (v_default v)) false (dumpVariableDefinition fg) true.
Proof.
  intros ts v r H Hp (Hi & Hd). inv H. pps. unfold dumpVariableDefinition. cbn [v_name v_type v_default] in *.
  eapply pr_imp; [eapply pr_seq; [apply pr_dollar|eapply pr_seq; [nm|eapply pr_seq; [apply pr_colonsp|eapply pr_seq; [eapply pr_type; eauto|eapply pr_default; eauto]]]]|].
  intros ts9 r9 (m1 & A1 & m2 & A2 & m3 & A3 & m4 & A4 & A5). econstructor; eauto.
Qed.
Lemma pr_vardefs ts l r : g_vardefs fok Ln ts l r -> propers ts -> Forall (fun v => has_items (v_type v) /\ default_survives fg (v_default v)) l ->
  pr (gr (g_vardefs fok Ln) l) true (wwhen (nonnil l) (dumpVariableDefinitions fg l)) true.
Proof.
  intros H Hp Hs. destruct l as [|x l].
  - eapply pr_imp; [apply pr_skip|]. intros ts9 r9 <-. constructor.
  - cbn [nonnil wwhen]. unfold dumpVariableDefinitions. rewrite (wfor_after (dumpVariableDefinition fg)). inv H. match goal with H : many1 _ _ _ _ |- _ => destruct H as [Hm _] end. pps.
    eapply pr_imp; [eapply pr_seq; [apply pr_lpar|eapply pr_seq; [apply (pr_many (g_vardef fok Ln)); [apply pr_comma|]|apply pr_end, pr_rpar]]|].
    + eapply prints_in; [|eassumption|assumption|exact Hs|apply pr_vardef]. auto with sf.
    + intros ts9 r9 (m1 & A1 & m2 & A2 & A3). econstructor; eauto. split; [exact A2|discriminate].
Qed.
Lemma pr_opt_name ts n r : g_opt_name ts n r -> propers ts -> pr (gr g_opt_name n) false (wwhen (nonnil n) (wr n)) true.
Proof.
  intros H Hp. destruct n as [|x n].
  - apply pr_end. eapply pr_imp; [apply pr_skip|]. intros ts9 r9 <-. constructor.
  - inv H. cbn [nonnil wwhen]. eapply pr_imp; [nm|]. intros ts9 r9 A. constructor; exact A.
Qed.
Lemma pr_opkind k : pr (gr g_opkind k) false (opkind_string k) true.
Proof. destruct k; (eapply pr_imp; [apply pr_kw; [reflexivity|discriminate]|]; intros ts9 r9 A; constructor; exact A). Qed.
Definition no_block (ts : list token) : Prop := ~ exists r, pun "{" ts r.
Lemma kw_no_block n ts r : name n ts r -> no_block ts.
Proof. intros H (r' & H'). inv H. inv H'. Qed.
Lemma opkind_no_block k ts r : g_opkind ts k r -> no_block ts.
Proof. intros H. inv H; eapply kw_no_block; eassumption. Qed.
Definition derives {A} (g : G A) (a : A) : Prop := exists ts r, g ts a r /\ propers ts.
Lemma pr_op_long n o : derives g_opt_name (o_name o) -> derives (g_vardefs fok Ln) (o_vars o) ->
  derives (g_dirs fok Ln false (operation_location (o_kind o))) (o_dirs o) -> derives (g_selset fok Ln) (o_sels o) -> op_survives fg (n = 1) o ->
  pr (fun ts r => g_op fok Ln ts o r /\ no_block ts) false
    ((opkind_string (o_kind o) +++ ws " ") +++ wwhen (nonnil (o_name o)) (wr (o_name o)) +++ wwhen (nonnil (o_vars o)) (dumpVariableDefinitions fg (o_vars o))
     +++ dumpOptDirectives fg 0 (o_dirs o) +++ wwhen (negb (Nat.eqb n 1)) (ws " ") +++ dumpSelections fg 0 (o_sels o)) true.
Proof.
  intros (t1 & r1 & H1 & P1) (t2 & r2 & H2 & P2) (t3 & r3 & H3 & P3) (t4 & r4 & H4 & P4) (S1 & S2 & S3 & _). eapply pr_imp.
  - eapply pr_seq; [eapply pr_seq_r; [apply pr_opkind|apply pr_sp]|]. eapply pr_seq; [eapply pr_opt_name; eauto|]. eapply pr_seq; [eapply pr_vardefs; eauto|].
    eapply pr_seq; [eapply pr_dirs; eauto|]. eapply (pr_seq_l _ _ _ true).
    + destruct (Nat.eqb n 1); [apply pr_skip|apply pr_end, pr_sp].
    + eapply pr_selset; eauto.
  - intros ts9 r9 (a1 & A1 & a2 & A2 & a3 & A3 & a4 & A4 & A5). split; [|eapply opkind_no_block, A1]. destruct o as [k nm vs ds ss]. cbn [o_kind o_name o_vars o_dirs o_sels] in *. eapply op_long; eauto.
Qed.
Lemma op_parts ts o r : g_op fok Ln ts o r -> propers ts -> derives g_opt_name (o_name o) /\ derives (g_vardefs fok Ln) (o_vars o) /\
  derives (g_dirs fok Ln false (operation_location (o_kind o))) (o_dirs o) /\ derives (g_selset fok Ln) (o_sels o).
Proof.
  intros H Hp. assert (P0 : propers []) by constructor. inv H; pps; cbn [o_kind o_name o_vars o_dirs o_sels].
  - split; [exists [], []; split; [constructor|exact P0]|]. split; [exists [], []; split; [constructor|exact P0]|]. split; [exists [], []; split; [constructor|exact P0]|].
    exists ts, r. auto.
  - split; [eexists _, _; split; eassumption|]. split; [eexists _, _; split; eassumption|]. split; [eexists _, _; split; eassumption|]. eexists _, _; split; eassumption.
Qed.
Lemma pr_op n ts o r : g_op fok Ln ts o r -> propers ts -> op_survives fg (n = 1) o ->
  pr (fun ts r => g_op fok Ln ts o r /\ (n <> 1 -> no_block ts)) false (dumpOperationDefinition fg n o) true.
Proof.
  intros H Hp Hs. unfold dumpOperationDefinition. destruct (op_parts ts o r H Hp) as (D1 & D2 & D3 & D4).
  destruct (match o_kind o with Query => negb (Nat.eqb n 1) || nonnil (o_name o) | _ => true end) eqn:E.
  - match goal with |- pr _ _ (?x +++ _) _ => replace x with (opkind_string (o_kind o) +++ ws " ") by (destruct (o_kind o); [rewrite E|..]; reflexivity) end.
    eapply pr_imp; [apply pr_op_long; assumption|]. intros ts9 r9 [A B]; split; [exact A|intros _; exact B].
  - destruct (o_kind o) eqn:Ek; try discriminate. apply orb_false_iff in E as [E1 E2]. apply negb_false_iff in E1. apply Nat.eqb_eq in E1.
    destruct Hs as (_ & _ & Ss & Hal). destruct (o_name o) eqn:En; [|discriminate]. destruct (Hal E1 Ek eq_refl) as [Ev Ed].
    rewrite E1, Ev, Ed. cbn [nonnil wwhen negb orb Nat.eqb dumpOptDirectives]. unfold dumpOptDirectives. cbn [nonnil wwhen]. rewrite !wseq_skip_l.
    destruct D4 as (t4 & r4 & H4 & P4). apply pr_start. eapply pr_imp; [eapply pr_selset; eauto|]. intros ts9 r9 A. split; [|congruence].
    destruct o. cbn in *. subst. constructor. exact A.
Qed.
Lemma pr_frag : prints (g_frag fok Ln) (frag_survives fg) false (dumpFragmentDefinition fg) true.
Proof.
  intros ts f r H Hp (Sc & Sd & Ss). inv H. pps. unfold dumpFragmentDefinition. cbn [f_name f_cond f_dirs f_sels] in *. eapply pr_imp.
  - eapply pr_seq; [apply pr_kw; [reflexivity|discriminate]|]. eapply pr_seq_l; [apply pr_sp|]. eapply pr_seq; [nm|].
    rewrite <- (wseq_assoc (ws " ") (wr (named_type c))), <- (wseq_assoc (ws "on")), <- (wseq_assoc (ws " ") (ws "on" +++ _)).
    eapply pr_seq; [eapply pr_cond; eauto|]. eapply pr_seq; [eapply pr_dirs; eauto|].
    eapply pr_seq_l; [apply pr_end, pr_sp|]. eapply pr_selset; eauto.
  - intros ts9 r9 (m1 & A1 & m2 & A2 & m3 & A3 & m4 & A4 & A5). econstructor; eauto.
Qed.

(** ** Type system *)
Lemma pr_desc d : desc_survives d -> pr (gr g_desc d) false (dumpDescription d) false.
Proof.
  intros Hd. unfold dumpDescription. destruct Hd as [->|(v & Ev & Hb & Hq)].
  - eapply pr_imp; [apply pr_skip|]. intros ts9 r9 <-. constructor.
  - destruct d as [|x d]; [eapply pr_imp; [apply pr_skip|]; intros ts9 r9 <-; constructor|]. cbn [nonnil wwhen]. rewrite Ev. clear Ev x d.
    pose proof Hb as (Hc & _). assert (Hcr : noCR v) by (eapply Forall_impl; [|exact Hc]; cbn; lia).
    assert (Hq' : ~ contains (92%Z :: triple) v). { intros (a & b & E). apply Hq. exists (a ++ [92%Z]), b. rewrite E, <- app_assoc. reflexivity. }
    destruct (lines_join v Hcr) as [Ej Ft].
    match goal with |- pr _ _ ?o _ => replace o with (wr (utf8s (block_text 0 0 v)) +++ wlf) end.
    + eapply pr_imp; [eapply pr_seq_r; [apply pr_word, block_word; [exact Hb|exact Hq'|apply stable_nonzero; exact Hb]|apply pr_lf]|]. intros ts9 r9 A. constructor. exact A.
    + unfold block_text, indented. rewrite map_map.
      replace (map (fun x => sp 0 ++ rep x) (lines_of v [])) with (lines_of v []).
      * rewrite Ej, !utf8s_app, utf8s_cons, !utf8s_app. cbn [wseq wr]. unfold ws, wlf, wseq. f_equal. rewrite <- !app_assoc. reflexivity.
      * rewrite <- (map_id (lines_of v [])) at 1. apply map_ext_in. intros l Hl. cbn [sp repeat app]. symmetry. apply rep_same. intros Hc'. apply Hq. rewrite <- Ej.
        destruct (join_parts _ _ Hl) as (a & b & ->). apply contains_part. exact Hc'.
Qed.
Lemma pr_ivdef loc : prints (g_ivdef fok Ln loc) (iv_survives fg) false (dumpInputValueDefinition fg) true.
Proof.
  intros ts i r H Hp (Sd & St & Sv & Sr). inv H. pps. unfold dumpInputValueDefinition. cbn [i_desc i_name i_type i_default i_dirs] in *.
  rewrite <- (wseq_assoc (wr (named_type t))). eapply pr_imp.
  - eapply pr_seq; [apply pr_desc; exact Sd|]. eapply pr_seq; [nm|]. eapply pr_seq; [apply pr_colonsp|]. eapply pr_seq; [eapply pr_unlisted; eauto|].
    eapply pr_seq; [eapply pr_default; eauto|eapply pr_dirs; eauto].
  - intros ts9 r9 (m1 & A1 & m2 & A2 & m3 & A3 & m4 & A4 & m5 & A5 & A6). econstructor; eauto.
Qed.
Lemma pr_argdefs ts l r : g_argdefs fok Ln ts l r -> propers ts -> Forall (iv_survives fg) l ->
  pr (gr (g_argdefs fok Ln) l) true (wwhen (nonnil l) (dumpArgumentsDefinition fg l)) true.
Proof.
  intros H Hp Hs. destruct l as [|x l].
  - eapply pr_imp; [apply pr_skip|]. intros ts9 r9 <-. constructor.
  - cbn [nonnil wwhen]. unfold dumpArgumentsDefinition. rewrite (wfor_before (Nat.ltb 0)) by reflexivity. inv H. match goal with H : many1 _ _ _ _ |- _ => destruct H as [Hm _] end. pps.
    eapply pr_imp; [eapply pr_seq; [apply pr_lpar|eapply pr_seq; [apply (pr_many (g_ivdef fok Ln LArgumentDefinition)); [apply pr_comma|]|apply pr_end, pr_rpar]]|].
    + eapply prints_in; [|eassumption|assumption|exact Hs|apply pr_ivdef]. auto with sf.
    + intros ts9 r9 (m1 & A1 & m2 & A2 & A3). econstructor; eauto. split; [exact A2|discriminate].
Qed.
Lemma pr_fielddef : prints (g_fielddef fok Ln) (fd_survives fg) false (dumpFieldDefinition fg) true.
Proof.
  intros ts f r H Hp (Sd & Sa & St & Sr). inv H. pps. unfold dumpFieldDefinition. cbn [fd_desc fd_name fd_args fd_type fd_dirs] in *.
  rewrite <- (wseq_assoc (wr (named_type t))). eapply pr_imp.
  - eapply pr_seq; [apply pr_desc; exact Sd|]. eapply pr_seq_l; [apply pr_indentation|]. eapply pr_seq; [nm|]. eapply pr_seq; [eapply pr_argdefs; eauto|].
    eapply pr_seq; [apply pr_colonsp|]. eapply pr_seq; [eapply pr_unlisted; eauto|eapply pr_dirs; eauto].
  - intros ts9 r9 (m1 & A1 & m2 & A2 & m3 & A3 & m4 & A4 & m5 & A5 & A6). econstructor; eauto.
Qed.
Lemma pr_enumval : prints (g_enumval fok Ln) (ev_survives fg) false (dumpEnumValueDefinition fg) true.
Proof.
  intros ts e r H Hp (Sd & Sr). inv H. pps. unfold dumpEnumValueDefinition. cbn [ev_desc ev_name ev_dirs] in *. eapply pr_imp.
  - eapply pr_seq; [apply pr_desc; exact Sd|]. eapply pr_seq_l; [apply pr_indentation|]. eapply pr_seq; [nm|eapply pr_dirs; eauto].
  - intros ts9 r9 (m1 & A1 & m2 & A2 & A3). econstructor; eauto.
Qed.
(** an optional block, one item per line *)
Lemma pr_block {A} (g : G A) (S : A -> Prop) f ts l r : sfx g -> prints g S false f true -> g_block g ts l r -> propers ts -> Forall S l ->
  pr (gr (g_block g) l) true (wwhen (nonnil l) (ws " {" +++ wlf +++ wfor (fun _ x => f x +++ wlf) l +++ ws "}")) true.
Proof.
  intros Hg P H Hp Hs. destruct l as [|x l].
  - eapply pr_imp; [apply pr_skip|]. intros ts9 r9 <-. constructor.
  - cbn [nonnil wwhen]. inv H. match goal with H : many1 _ _ _ _ |- _ => destruct H as [Hm _] end. pps.
    eapply pr_imp; [eapply pr_seq; [apply pr_splcur|eapply pr_seq_l; [apply pr_lf|eapply pr_seq; [apply (pr_many_lf g)|apply pr_end, pr_rcur]]]|].
    + eapply prints_in; [exact Hg|eassumption|assumption|exact Hs|exact P].
    + intros ts9 r9 (m1 & A1 & m2 & A2 & A3). econstructor; eauto. split; [exact A2|discriminate].
Qed.
Lemma pr_sep_items s ts l r : sep1 s (g_member Ln) ts l r -> propers ts -> Forall bare l -> l <> [] /\ forall x, In x l -> pr (gr (g_member Ln) x) false (wr (named_type x)) true.
Proof.
  intros H Hp Hb. destruct (sep1_items s _ ts l r (g_member_suffix Ln) H Hp) as [Hne HI]. split; [exact Hne|]. intros x Hx. destruct (HI x Hx) as (ts' & r' & Hg & Hp').
  eapply pr_member; eauto. rewrite Forall_forall in Hb. auto.
Qed.
Lemma pr_implements hf ts l r : g_implements Ln ts l r -> propers ts -> Forall bare l ->
  pr (gr (g_implements Ln) l) true (wwhen (nonnil l) (ws " " +++ dumpImplementsInterfaces l hf)) true.
Proof.
  intros H Hp Hb. destruct l as [|x l].
  - eapply pr_imp; [apply pr_skip|]. intros ts9 r9 <-. constructor.
  - cbn [nonnil wwhen]. inv H. pps. match goal with H : sep1 _ _ _ _ _ |- _ => destruct (pr_sep_items _ _ _ _ H ltac:(assumption) Hb) as [Hne HI] end. unfold dumpImplementsInterfaces.
    eapply pr_imp.
    + eapply pr_seq_l; [apply pr_sp|]. eapply pr_seq; [apply (pr_kw "implements"); [reflexivity|discriminate]|]. apply (pr_separated "&" (g_member Ln) named_type); [exact Hne| | |exact HI].
      * change (wr (B " & ")) with (ws " " +++ ws "&" +++ ws " "). eapply pr_seq_l; [apply pr_sp|]. eapply pr_seq_r; [apply pr_amp|apply pr_sp].
      * destruct hf.
        -- change (wr (LF :: B " " ++ indentation ++ B " & ")) with (wlf +++ ws " " +++ wr indentation +++ ws " " +++ ws "&" +++ ws " ").
           eapply pr_seq_l; [apply pr_lf|]. eapply pr_seq_l; [apply pr_sp|]. eapply pr_seq_l; [apply pr_indentation|]. eapply pr_seq_l; [apply pr_sp|]. eapply pr_seq_r; [apply pr_amp|apply pr_sp].
        -- change (wr (LF :: B " " ++ [] ++ B " & ")) with (wlf +++ ws " " +++ ws " " +++ ws "&" +++ ws " ").
           eapply pr_seq_l; [apply pr_lf|]. eapply pr_seq_l; [apply pr_sp|]. eapply pr_seq_l; [apply pr_sp|]. eapply pr_seq_r; [apply pr_amp|apply pr_sp].
    + intros ts9 r9 (m1 & A1 & m2 & A2 & A3). econstructor; eauto.
Qed.
Lemma pr_bar : pr (pun "|") true (wr (B " | ")) false /\ pr (pun "|") true (wr (LF :: B " " ++ B " | ")) false.
Proof.
  split.
  - change (wr (B " | ")) with (ws " " +++ ws "|" +++ ws " "). eapply pr_seq_l; [apply pr_sp|]. eapply pr_seq_r; [apply pr_pipe|apply pr_sp].
  - change (wr (LF :: B " " ++ B " | ")) with (wlf +++ ws " " +++ ws " " +++ ws "|" +++ ws " ").
    eapply pr_seq_l; [apply pr_lf|]. eapply pr_seq_l; [apply pr_sp|]. eapply pr_seq_l; [apply pr_sp|]. eapply pr_seq_r; [apply pr_pipe|apply pr_sp].
Qed.
Lemma pr_members ts l r : g_members Ln ts l r -> propers ts -> Forall bare l ->
  pr (gr (g_members Ln) l) true (wwhen (nonnil l) (ws " " +++ dumpUnionMemberTypes l)) true.
Proof.
  intros H Hp Hb. destruct l as [|x l].
  - eapply pr_imp; [apply pr_skip|]. intros ts9 r9 <-. constructor.
  - cbn [nonnil wwhen]. inv H. pps. match goal with H : sep1 _ _ _ _ _ |- _ => destruct (pr_sep_items _ _ _ _ H ltac:(assumption) Hb) as [Hne HI] end. unfold dumpUnionMemberTypes.
    destruct pr_bar as [B1 B2]. eapply pr_imp.
    + eapply pr_seq_l; [apply pr_sp|]. eapply pr_seq; [apply pr_end, pr_equal|]. apply (pr_separated "|" (g_member Ln) named_type); [exact Hne|exact B1|exact B2|exact HI].
    + intros ts9 r9 (m1 & A1 & m2 & A2 & A3). econstructor; eauto.
Qed.
(** dumpTypeBody after the description or "extend" *)
Definition dump_tydef (t : tydef) : W :=
  match t_kind t with
      | KScalar => ws "scalar " +++ wr (t_name t) +++ dumpOptDirectives fg 0 (t_dirs t)
      | KObject =>
          ws "type " +++ wr (t_name t)
          +++ wwhen (nonnil (t_impl t)) (ws " " +++ dumpImplementsInterfaces (t_impl t) (nonnil (t_fields t)))
          +++ dumpOptDirectives fg 0 (t_dirs t)
          +++ wwhen (nonnil (t_fields t)) (ws " " +++ dumpFieldsDefinition fg (t_fields t))
      | KInterface =>
          ws "interface " +++ wr (t_name t) +++ dumpOptDirectives fg 0 (t_dirs t)
          +++ wwhen (nonnil (t_fields t)) (ws " " +++ dumpFieldsDefinition fg (t_fields t))
      | KUnion =>
          ws "union " +++ wr (t_name t) +++ dumpOptDirectives fg 0 (t_dirs t)
          +++ wwhen (nonnil (t_members t)) (ws " " +++ dumpUnionMemberTypes (t_members t))
      | KEnum =>
          ws "enum " +++ wr (t_name t) +++ dumpOptDirectives fg 0 (t_dirs t)
          +++ wwhen (nonnil (t_values t)) (ws " " +++ dumpEnumValuesDefinition fg (t_values t))
      | KInputObject =>
          ws "input " +++ wr (t_name t) +++ dumpOptDirectives fg 0 (t_dirs t)
          +++ wwhen (nonnil (t_inputs t)) (ws " " +++ dumpInputFieldsDefinition fg (t_inputs t))
      end.
Lemma pr_kwsp s : namey (B s) = true -> B s <> [] -> pr (kw s) false (ws s +++ ws " ") false.
Proof. intros H1 H2. eapply pr_seq_r; [apply pr_kw; assumption|apply pr_sp]. Qed.
Lemma input_fields l : wwhen (nonnil l) (ws " " +++ dumpInputFieldsDefinition fg l)
  = wwhen (nonnil l) (ws " {" +++ wlf +++ wfor (fun _ x => (wr indentation +++ dumpInputValueDefinition fg x) +++ wlf) l +++ ws "}").
Proof.
  unfold dumpInputFieldsDefinition. replace (wfor _ l) with (wfor (fun _ x => (wr indentation +++ dumpInputValueDefinition fg x) +++ wlf) l).
  2:{ apply wfori_ext. intros i x. apply wseq_assoc. }
  rewrite <- wseq_assoc. reflexivity.
Qed.
Lemma pr_tydef desc ts t r : g_tydef fok Ln desc ts t r -> propers ts -> td_survives fg t -> pr (gr (g_tydef fok Ln desc) t) false (dump_tydef t) true.
Proof.
  intros H Hp (Sd & Si & Sr & Sf & Sm & Sv & Sn). unfold dump_tydef. inv H; pps; cbn [t_kind t_desc t_name t_impl t_dirs t_fields t_members t_values t_inputs] in *.
  - change (ws "scalar ") with (ws "scalar" +++ ws " "). eapply pr_imp; [eapply pr_seq; [apply pr_kwsp; [reflexivity|discriminate]|eapply pr_seq; [nm|eapply pr_dirs; eauto]]|].
    intros ts9 r9 (m1 & A1 & m2 & A2 & A3). eapply td_scalar; eauto.
  - change (ws "type ") with (ws "type" +++ ws " ").
    eapply pr_imp; [eapply pr_seq; [apply pr_kwsp; [reflexivity|discriminate]|eapply pr_seq; [nm|eapply pr_seq; [eapply pr_implements; eauto|eapply pr_seq; [eapply pr_dirs; eauto|]]]]|].
    + unfold dumpFieldsDefinition. rewrite <- wseq_assoc. eapply (pr_block _ _ (dumpFieldDefinition fg)); [auto with sf|apply pr_fielddef|eassumption|assumption|exact Sf].
    + intros ts9 r9 (m1 & A1 & m2 & A2 & m3 & A3 & m4 & A4 & A5). eapply td_object; eauto.
  - change (ws "interface ") with (ws "interface" +++ ws " ").
    eapply pr_imp; [eapply pr_seq; [apply pr_kwsp; [reflexivity|discriminate]|eapply pr_seq; [nm|eapply pr_seq; [eapply pr_dirs; eauto|]]]|].
    + unfold dumpFieldsDefinition. rewrite <- wseq_assoc. eapply (pr_block _ _ (dumpFieldDefinition fg)); [auto with sf|apply pr_fielddef|eassumption|assumption|exact Sf].
    + intros ts9 r9 (m1 & A1 & m2 & A2 & m4 & A4 & A5). eapply td_interface; eauto.
  - change (ws "union ") with (ws "union" +++ ws " ").
    eapply pr_imp; [eapply pr_seq; [apply pr_kwsp; [reflexivity|discriminate]|eapply pr_seq; [nm|eapply pr_seq; [eapply pr_dirs; eauto|eapply pr_members; eauto]]]|].
    intros ts9 r9 (m1 & A1 & m2 & A2 & m4 & A4 & A5). eapply td_union; eauto.
  - change (ws "enum ") with (ws "enum" +++ ws " ").
    eapply pr_imp; [eapply pr_seq; [apply pr_kwsp; [reflexivity|discriminate]|eapply pr_seq; [nm|eapply pr_seq; [eapply pr_dirs; eauto|]]]|].
    + unfold dumpEnumValuesDefinition. rewrite <- wseq_assoc. eapply (pr_block _ _ (dumpEnumValueDefinition fg)); [auto with sf|apply pr_enumval|eassumption|assumption|exact Sv].
    + intros ts9 r9 (m1 & A1 & m2 & A2 & m4 & A4 & A5). eapply td_enum; eauto.
  - change (ws "input ") with (ws "input" +++ ws " ").
    eapply pr_imp; [eapply pr_seq; [apply pr_kwsp; [reflexivity|discriminate]|eapply pr_seq; [nm|eapply pr_seq; [eapply pr_dirs; eauto|]]]|].
    + rewrite input_fields. eapply (pr_block _ _ (fun x => wr indentation +++ dumpInputValueDefinition fg x)); [auto with sf| |eassumption|assumption|exact Sn].
      intros ts1 a r1' G1 P1 S1. eapply pr_seq_l; [apply pr_indentation|]. eapply pr_ivdef; eauto.
    + intros ts9 r9 (m1 & A1 & m2 & A2 & m4 & A4 & A5). eapply td_input; eauto.
Qed.
Lemma pr_optype : prints (g_optype Ln) (fun _ => True) false dumpOperationTypeDefinition true.
Proof.
  intros ts o r H Hp _. inv H. pps. unfold dumpOperationTypeDefinition. cbn [ot_op ot_type].
  eapply pr_imp; [eapply pr_seq_l; [apply pr_indent|eapply pr_seq; [apply pr_opkind|eapply pr_seq; [apply pr_colonsp|eapply pr_named; eauto]]]|].
  intros ts9 r9 (m1 & A1 & m2 & A2 & A3). econstructor; eauto.
Qed.
Lemma all_true {A} (l : list A) : Forall (fun _ => True) l. Proof. apply Forall_forall. auto. Qed.
Lemma pr_schema : prints (g_schema fok Ln) (fun s => dirs_survive fg (s_dirs s)) false (dumpSchemaDefinition fg) true.
Proof.
  intros ts s r H Hp Hs. inv H. match goal with H : many1 _ _ _ _ |- _ => destruct H as [Hm Hne] end. pps. unfold dumpSchemaDefinition. cbn [s_dirs s_ops] in *. eapply pr_imp.
  - eapply pr_seq; [apply pr_kw; [reflexivity|discriminate]|]. eapply pr_seq; [eapply pr_dirs; eauto|]. eapply pr_seq; [apply pr_splcur|]. eapply pr_seq_l; [apply pr_lf|].
    eapply pr_seq; [apply (pr_many_lf (g_optype Ln))|apply pr_end, pr_rcur]. eapply prints_in; [auto with sf|eassumption|assumption|apply all_true|apply pr_optype].
  - intros ts9 r9 (m1 & A1 & m2 & A2 & m3 & A3 & m4 & A4 & A5). econstructor; eauto. split; assumption.
Qed.
Lemma pr_schemaext : prints (g_schemaext fok Ln) (fun s => dirs_survive fg (s_dirs s)) false
  (fun s => ws "schema" +++ dumpOptDirectives fg 0 (s_dirs s)
  +++ wwhen (nonnil (s_ops s)) (ws " {" +++ wlf +++ wfor (fun _ o => dumpOperationTypeDefinition o +++ wlf) (s_ops s) +++ ws "}")) true.
Proof.
  intros ts s r H Hp Hs. inv H. pps. cbn [s_dirs s_ops] in *. eapply pr_imp.
  - eapply pr_seq; [apply pr_kw; [reflexivity|discriminate]|]. eapply pr_seq; [eapply pr_dirs; eauto|]. eapply pr_block; [auto with sf|apply pr_optype|eassumption|assumption|apply all_true].
  - intros ts9 r9 (m1 & A1 & m2 & A2 & A3). econstructor; eauto.
Qed.

(** ** Directive definitions *)
Lemma land_bit l i : N.land l (N.shiftl 1 i) = if N.testbit l i then N.shiftl 1 i else 0%N.
Proof.
  apply N.bits_inj. intros j. rewrite N.land_spec. rewrite N.shiftl_1_l. rewrite N.pow2_bits_eqb. destruct (N.eqb_spec i j) as [<-|Hn].
  - destruct (N.testbit l i) eqn:E; [rewrite N.pow2_bits_eqb, N.eqb_refl; reflexivity|rewrite N.bits_0; reflexivity].
  - rewrite andb_false_r. destruct (N.testbit l i); [rewrite N.pow2_bits_eqb; symmetry; apply N.eqb_neq; exact Hn|rewrite N.bits_0; reflexivity].
Qed.
Lemma shift_nonzero i : N.shiftl 1 i <> 0%N.
Proof. rewrite N.shiftl_1_l. apply N.pow_nonzero. discriminate. Qed.
Lemma location_name_bit i n : nth_error location_names i = Some n -> location_name (N.shiftl 1 (N.of_nat i)) = n.
Proof.
  intros H. assert (L : i < List.length location_names) by (apply nth_error_Some; congruence). cbn in L.
  do 19 (destruct i as [|i]; [vm_compute in H |- *; congruence|]). lia.
Qed.
Lemma in_locations_of l n : (forall i, N.testbit l (N.of_nat i) = true -> i < List.length location_names) ->
  In n (locations_of l) <-> exists i, N.testbit l (N.of_nat i) = true /\ nth_error location_names i = Some n.
Proof.
  intros Hl. unfold locations_of. rewrite in_flat_map. split.
  - intros (i & Hi & Hn). cbv zeta in Hn. rewrite land_bit in Hn. destruct (N.testbit l (N.of_nat i)) eqn:E.
    + destruct (N.eqb_spec (N.shiftl 1 (N.of_nat i)) 0) as [E0|_]; [exfalso; eapply shift_nonzero, E0|]. destruct Hn as [<-|[]].
      exists i. split; [exact E|]. pose proof (Hl i E) as L. destruct (nth_error location_names i) as [n|] eqn:En; [|apply nth_error_None in En; lia]. rewrite (location_name_bit i n En). reflexivity.
    + destruct Hn.
  - intros (i & E & En). exists i. split; [apply in_seq; pose proof (Hl i E); lia|]. cbv zeta. rewrite land_bit, E.
    destruct (N.eqb_spec (N.shiftl 1 (N.of_nat i)) 0) as [E0|_]; [exfalso; eapply shift_nonzero, E0|]. left. apply location_name_bit, En.
Qed.
Lemma locations_back ns l : ns <> [] -> (forall n, In n ns -> In n location_names) -> locations_denote ns l ->
  locations_of l <> [] /\ (forall n, In n (locations_of l) -> In n ns) /\ locations_denote (locations_of l) l.
Proof.
  intros Hne Hin Hd. assert (Hl : forall i, N.testbit l (N.of_nat i) = true -> i < List.length location_names).
  { intros i Hi. apply Hd in Hi as (n & _ & Hn). apply nth_error_Some. congruence. }
  split; [|split].
  - destruct ns as [|n ns]; [congruence|]. destruct (In_nth_error _ _ (Hin n (or_introl eq_refl))) as (i & Hi). intros E.
    assert (X : In n (locations_of l)); [|rewrite E in X; destruct X]. apply in_locations_of; [exact Hl|]. exists i. split; [|exact Hi]. apply Hd. exists n. split; [left; reflexivity|exact Hi].
  - intros n Hn. apply in_locations_of in Hn as (i & Hi & En); [|exact Hl]. apply Hd in Hi as (m & Hm & Em). congruence.
  - intros i. split.
    + intros Hi. pose proof (Hd i) as [D _]. destruct (D Hi) as (n & _ & En). exists n. split; [|exact En]. apply in_locations_of; [exact Hl|]. eauto.
    + intros (n & Hn & En). apply in_locations_of in Hn as (j & Hj & Ej); [|exact Hl]. replace i with j; [exact Hj|].
      pose proof location_names_nodup as ND.
      rewrite NoDup_nth_error in ND. apply ND; [apply Hl, Hj|congruence].
Qed.
Lemma pr_dirdef desc : prints (g_dirdef fok Ln desc) (fun d => Forall (iv_survives fg) (dd_args d)) false
  (fun d => ws "directive @" +++ wr (dd_name d) +++ wwhen (nonnil (dd_args d)) (dumpArgumentsDefinition fg (dd_args d)) +++ ws " on" +++ dumpDirectiveLocations (dd_locs d)) true.
Proof.
  intros ts d r H Hp Hs. inv H. pps. cbn [dd_desc dd_name dd_args dd_locs] in *.
  match goal with H : sep1 _ _ _ _ _ |- _ => destruct (sep1_items _ _ _ _ _ (g_dirloc_suffix Ln) H ltac:(assumption)) as [Hne HI] end.
  assert (Hin : forall n, In n ns -> In n location_names /\ is_name n). { intros n1 Hn1. destruct (HI n1 Hn1) as (ts' & r' & Hg & Hp'). inv Hg. split; [assumption|eapply name_proper; eauto]. }
  destruct (locations_back ns l Hne (fun n H => proj1 (Hin n H)) ltac:(assumption)) as (L1 & L2 & L3). destruct pr_bar as [B1 B2].
  change (ws "directive @") with (ws "directive" +++ ws " " +++ ws "@"). change (ws " on") with (ws " " +++ ws "on"). rewrite !wseq_assoc. eapply pr_imp.
  - eapply pr_seq; [apply pr_kw; [reflexivity|discriminate]|]. eapply pr_seq_l; [apply pr_sp|]. eapply pr_seq; [apply pr_at|]. eapply pr_seq; [nm|]. eapply pr_seq; [eapply pr_argdefs; eauto|].
    eapply pr_seq_l; [apply pr_sp|]. eapply pr_seq; [apply pr_kw; [reflexivity|discriminate]|]. unfold dumpDirectiveLocations. rewrite <- (map_id (locations_of l)).
    apply (pr_separated "|" (g_dirloc Ln) (fun n => n)); [exact L1|exact B1|exact B2|]. intros n1 Hn1. apply L2, Hin in Hn1 as [I1 I2].
    eapply pr_imp; [apply pr_name; exact I2|]. intros ts9 r9 A. constructor; auto.
  - intros ts9 r9 (m1 & A1 & m2 & A2 & m3 & A3 & m4 & A4 & m5 & A5 & m6 & A6 & A7). econstructor; eauto.
Qed.

(** ** Definitions *)
Lemma body_brace ts b r r' : g_body fok Ln ts b r -> pun "{" ts r' -> exists o, b = DOp o.
Proof.
  intros H Hb. inv H; [eauto|exfalso..]; repeat match goal with
    | H : g_frag _ _ _ _ _ |- _ => inv H | H : g_schema _ _ _ _ _ |- _ => inv H | H : g_desc _ _ _ |- _ => inv H
    | H : g_tydef _ _ _ _ _ _ |- _ => inv H | H : g_dirdef _ _ _ _ _ _ |- _ => inv H end;
    match goal with H1 : terminal ?k _ ?ts _, H2 : pun "{" ?ts _ |- _ => inv H1; inv H2 end.
Qed.
Lemma pr_body n ts b r : g_body fok Ln ts b r -> propers ts -> body_survives fg (n = 1) b ->
  pr (fun ts r => g_body fok Ln ts b r /\ (n <> 1 -> no_block ts)) false (dumpDefinition fg n b) true.
Proof.
  intros H Hp Hs.
  assert (N : forall o, (forall x, b <> DOp x) -> pr (gr (g_body fok Ln) b) false o true -> pr (fun ts r => g_body fok Ln ts b r /\ (n <> 1 -> no_block ts)) false o true).
  { intros o Hb P. eapply pr_imp; [exact P|]. intros ts9 r9 A. split; [exact A|]. intros _ (r' & X). destruct (body_brace _ _ _ _ A X) as (x & E). exact (Hb x E). }
  inv H; pps; cbn [dumpDefinition body_survives] in *; try (apply N; [discriminate|]).
  - eapply pr_imp; [eapply pr_op; eauto|]. intros ts9 r9 [A1 A2]. split; [constructor; exact A1|exact A2].
  - eapply pr_imp; [eapply pr_frag; eauto|]. intros ts9 r9 A. constructor; exact A.
  - eapply pr_imp; [eapply pr_schema; eauto|]. intros ts9 r9 A. constructor; exact A.
  - eapply pr_imp; [eapply pr_schema; eauto|]. intros ts9 r9 A. constructor; exact A.
  - change (dumpTypeBody fg false t) with (dumpDescription (t_desc t) +++ wskip +++ dump_tydef t). rewrite wseq_skip_l.
    match goal with H : g_tydef _ _ ?d _ _ _ |- _ => assert (E : t_desc t = d) by (inv H; reflexivity) end.
    eapply pr_imp; [eapply pr_seq; [apply pr_desc; apply Hs|eapply pr_tydef; eauto]|]. intros ts9 r9 (m & A1 & A2). rewrite E in A1. econstructor; eauto.
  - destruct Hs as [S1 S2]. unfold dumpDirectiveDefinition.
    match goal with H : g_dirdef _ _ ?d _ _ _ |- _ => assert (E : dd_desc x = d) by (inv H; reflexivity) end.
    eapply pr_imp; [eapply pr_seq; [apply pr_desc; exact S1|eapply pr_dirdef; eauto]|]. intros ts9 r9 (m & A1 & A2). rewrite E in A1. econstructor; eauto.
  - unfold dumpSchemaExtension. change (ws "extend schema") with ((ws "extend" +++ ws " ") +++ ws "schema"). rewrite wseq_assoc.
    eapply pr_imp; [eapply pr_seq; [apply pr_kwsp; [reflexivity|discriminate]|eapply pr_schemaext; eauto]|]. intros ts9 r9 (m & A1 & A2). econstructor; eauto.
  - change (dumpTypeBody fg true t) with (wskip +++ (ws "extend" +++ ws " ") +++ dump_tydef t). rewrite wseq_skip_l.
    eapply pr_imp; [eapply pr_seq; [apply pr_kwsp; [reflexivity|discriminate]|eapply pr_tydef; eauto]|]. intros ts9 r9 (m & A1 & A2). econstructor; eauto.
Qed.
End Constructs.
