(** * GrammarProps: facts about the grammar alone — a derivation leaves a suffix of its input; June 2018 derivations are
    lenient derivations; derivations without a broken list type are lenient derivations. *)
From Verif Require Import Base Utf8 Lexer AST Grammar.

(** ** Suffixes *)
Definition suffix (r ts : list token) : Prop := exists p, ts = p ++ r.
Lemma suffix_refl ts : suffix ts ts. Proof. exists []. reflexivity. Defined.
Lemma suffix_trans a b c : suffix a b -> suffix b c -> suffix a c.
Proof. intros (p & ->) (q & ->). exists (q ++ p). apply app_assoc. Defined.
Lemma terminal_suffix k lit ts r : terminal k lit ts r -> suffix r ts.
Proof. intros []. exists [mkTok k lit l c]. reflexivity. Defined.
Definition sfx {A} (g : G A) : Prop := forall ts a r, g ts a r -> suffix r ts.
Definition many_suffix {A} (g : G A) (f : sfx g) : sfx (many g) :=
  fix go ts l r (H : many g ts l r) : suffix r ts :=
    match H with
    | many_nil _ ts => suffix_refl ts
    | many_cons _ ts a r1 l r H1 H2 => suffix_trans _ _ _ (go _ _ _ H2) (f _ _ _ H1)
    end.
Lemma many1_suffix {A} (g : G A) : sfx g -> sfx (many1 g).
Proof. intros f ts l r [H _]. exact (many_suffix g f _ _ _ H). Qed.
Lemma sep1_suffix {A} s (g : G A) : sfx g -> sfx (sep1 s g).
Proof.
  intros f ts l r H. induction H; eauto.
  eapply suffix_trans; [eassumption|]. eapply suffix_trans; [eapply terminal_suffix; eassumption|]. eauto.
Qed.
Lemma maybe_suffix s ts r : maybe s ts r -> suffix r ts.
Proof. intros [->|H]; [apply suffix_refl|eapply terminal_suffix; exact H]. Qed.

(** turn the premises of a rule into suffix facts, then chain them *)
Ltac sfacts := repeat match goal with
  | H : terminal _ _ _ _ |- _ => apply terminal_suffix in H
  | H : maybe _ _ _ |- _ => apply maybe_suffix in H
  end.
Ltac chain := match goal with
  | |- suffix ?r ?r => apply suffix_refl
  | H : suffix ?r1 ?ts |- suffix _ ?ts => eapply suffix_trans; [|exact H]; clear H; chain
  end.
Ltac by_chain := subst; sfacts; chain.

Lemma g_type_suffix lv : sfx (g_type lv).
Proof. intros ts a r H. induction H; by_chain. Qed.
Lemma g_named_suffix lv : sfx (g_named lv).
Proof. intros ts a r H. inversion H; by_chain. Qed.
Lemma g_member_suffix lv : sfx (g_member lv).
Proof. intros ts a r H. inversion H; [by_chain|]. subst. eapply g_type_suffix; eassumption. Qed.

Section Suffix.
Variable fok : bytes -> bool.
Variable lv : level.

Fixpoint g_value_suffix const ts v r (H : g_value fok lv const ts v r) {struct H} : suffix r ts :=
  match H with
  | v_var _ _ _ ts r1 n r _ H1 H2 => suffix_trans _ _ _ (terminal_suffix _ _ _ _ H2) (terminal_suffix _ _ _ _ H1)
  | v_int _ _ _ ts lit z r H _ _ => terminal_suffix _ _ _ _ H
  | v_float _ _ _ ts lit r H _ => terminal_suffix _ _ _ _ H
  | v_string _ _ _ ts s r H => terminal_suffix _ _ _ _ H
  | v_true _ _ _ ts r H => terminal_suffix _ _ _ _ H
  | v_false _ _ _ ts r H => terminal_suffix _ _ _ _ H
  | v_null _ _ _ ts r H => terminal_suffix _ _ _ _ H
  | v_enum _ _ _ ts n r H _ _ _ => terminal_suffix _ _ _ _ H
  | v_list _ _ _ ts r1 l r2 r H1 H2 H3 =>
      suffix_trans _ _ _ (terminal_suffix _ _ _ _ H3)
        (suffix_trans _ _ _ (many_suffix _ (g_value_suffix const) _ _ _ H2) (terminal_suffix _ _ _ _ H1))
  | v_object _ _ _ ts r1 l r2 r H1 H2 H3 =>
      suffix_trans _ _ _ (terminal_suffix _ _ _ _ H3)
        (suffix_trans _ _ _ (many_suffix _ (g_ofield_suffix const) _ _ _ H2) (terminal_suffix _ _ _ _ H1))
  end
with g_ofield_suffix const ts v r (H : g_ofield fok lv const ts v r) {struct H} : suffix r ts :=
  match H with
  | of_intro _ _ _ ts n r1 r2 v r H1 H2 H3 =>
      suffix_trans _ _ _ (g_value_suffix const _ _ _ H3)
        (suffix_trans _ _ _ (terminal_suffix _ _ _ _ H2) (terminal_suffix _ _ _ _ H1))
  end.

(** Use a lemma [L : sfx g] on every premise of that form. *)
Ltac use L := repeat match goal with H : _ |- _ => apply L in H end.

Lemma g_default_suffix : sfx (g_default fok lv).
Proof. intros ts a r H. inversion H; subst; use (g_value_suffix true); by_chain. Qed.
Lemma g_arg_suffix c : sfx (g_arg fok lv c).
Proof. intros ts a r H. inversion H; subst; use (g_value_suffix c); by_chain. Qed.
Lemma g_args_suffix c : sfx (g_args fok lv c).
Proof. intros ts a r H. inversion H; subst; use (many_suffix _ (g_arg_suffix c)); by_chain. Qed.
Lemma g_dir_suffix c l : sfx (g_dir fok lv c l).
Proof. intros ts a r H. inversion H; subst; use (g_args_suffix c); by_chain. Qed.
Lemma g_dirs_suffix c l : sfx (g_dirs fok lv c l).
Proof. exact (many_suffix _ (g_dir_suffix c l)). Qed.
Ltac usedirs := repeat match goal with H : g_dirs _ _ _ _ _ _ _ |- _ => apply g_dirs_suffix in H end.
Lemma g_cond_suffix : sfx (g_cond lv).
Proof. intros ts a r H. inversion H; subst; use (g_named_suffix lv); by_chain. Qed.
Lemma g_opt_cond_suffix : sfx (g_opt_cond lv).
Proof. intros ts a r H. inversion H; subst; use g_cond_suffix; by_chain. Qed.
Lemma g_alias_suffix : sfx g_alias.
Proof. intros ts a r H. inversion H; by_chain. Qed.

Fixpoint g_sel_suffix ts v r (H : g_sel fok lv ts v r) {struct H} : suffix r ts :=
  match H with
  | sel_field _ _ ts al n r1 args r2 ds r3 ss r H1 H2 H3 H4 =>
      suffix_trans _ _ _ (g_opt_selset_suffix _ _ _ H4) (suffix_trans _ _ _ (g_dirs_suffix _ _ _ _ _ H3)
        (suffix_trans _ _ _ (g_args_suffix _ _ _ _ H2) (g_alias_suffix _ _ _ H1)))
  | sel_spread _ _ ts r1 n r2 ds r H1 H2 _ H3 =>
      suffix_trans _ _ _ (g_dirs_suffix _ _ _ _ _ H3) (suffix_trans _ _ _ (terminal_suffix _ _ _ _ H2) (terminal_suffix _ _ _ _ H1))
  | sel_inline _ _ ts r1 c r2 ds r3 ss r H1 H2 H3 H4 =>
      suffix_trans _ _ _ (g_selset_suffix _ _ _ H4) (suffix_trans _ _ _ (g_dirs_suffix _ _ _ _ _ H3)
        (suffix_trans _ _ _ (g_opt_cond_suffix _ _ _ H2) (terminal_suffix _ _ _ _ H1)))
  end
with g_selset_suffix ts v r (H : g_selset fok lv ts v r) {struct H} : suffix r ts :=
  match H with
  | ss_intro _ _ ts r1 ss r2 r H1 H2 _ H3 =>
      suffix_trans _ _ _ (terminal_suffix _ _ _ _ H3)
        (suffix_trans _ _ _ (many_suffix _ g_sel_suffix _ _ _ H2) (terminal_suffix _ _ _ _ H1))
  end
with g_opt_selset_suffix ts v r (H : g_opt_selset fok lv ts v r) {struct H} : suffix r ts :=
  match H with
  | os_none _ _ ts => suffix_refl ts
  | os_some _ _ ts ss r H => g_selset_suffix _ _ _ H
  end.

Lemma g_vardef_suffix : sfx (g_vardef fok lv).
Proof. intros ts a r H. inversion H; subst; use (g_type_suffix lv); use g_default_suffix; by_chain. Qed.
Lemma g_vardefs_suffix : sfx (g_vardefs fok lv).
Proof. intros ts a r H. inversion H; subst; use (many1_suffix _ g_vardef_suffix); by_chain. Qed.
Lemma g_opkind_suffix : sfx g_opkind.
Proof. intros ts a r H. inversion H; by_chain. Qed.
Lemma g_opt_name_suffix : sfx g_opt_name.
Proof. intros ts a r H. inversion H; by_chain. Qed.
Lemma g_op_suffix : sfx (g_op fok lv).
Proof.
  intros ts a r H. inversion H; subst; use g_selset_suffix; usedirs; use g_vardefs_suffix;
    use g_opt_name_suffix; use g_opkind_suffix; by_chain.
Qed.
Lemma g_frag_suffix : sfx (g_frag fok lv).
Proof.
  intros ts a r H. inversion H; subst; use g_selset_suffix; usedirs; use g_cond_suffix; by_chain.
Qed.
Lemma g_desc_suffix : sfx g_desc.
Proof. intros ts a r H. inversion H; by_chain. Qed.
Lemma g_ivdef_suffix l : sfx (g_ivdef fok lv l).
Proof.
  intros ts a r H. inversion H; subst; use g_desc_suffix; use (g_type_suffix lv); use g_default_suffix; usedirs; by_chain.
Qed.
Lemma g_argdefs_suffix : sfx (g_argdefs fok lv).
Proof. intros ts a r H. inversion H; subst; use (many1_suffix _ (g_ivdef_suffix LArgumentDefinition)); by_chain. Qed.
Lemma g_fielddef_suffix : sfx (g_fielddef fok lv).
Proof.
  intros ts a r H. inversion H; subst; use g_desc_suffix; use (g_type_suffix lv); use g_argdefs_suffix; usedirs; by_chain.
Qed.
Lemma g_enumval_suffix : sfx (g_enumval fok lv).
Proof. intros ts a r H. inversion H; subst; use g_desc_suffix; usedirs; by_chain. Qed.
Lemma g_block_suffix {A} (g : G A) : sfx g -> sfx (g_block g).
Proof. intros f ts a r H. inversion H; subst; use (many1_suffix _ f); by_chain. Qed.
Lemma g_implements_suffix : sfx (g_implements lv).
Proof. intros ts a r H. inversion H; subst; use (sep1_suffix "&" _ (g_member_suffix lv)); by_chain. Qed.
Lemma g_members_suffix : sfx (g_members lv).
Proof. intros ts a r H. inversion H; subst; use (sep1_suffix "|" _ (g_member_suffix lv)); by_chain. Qed.
Lemma g_tydef_suffix d : sfx (g_tydef fok lv d).
Proof.
  intros ts a r H. inversion H; subst; use g_implements_suffix; use g_members_suffix; use (g_block_suffix _ g_fielddef_suffix);
    use (g_block_suffix _ g_enumval_suffix); use (g_block_suffix _ (g_ivdef_suffix LInputFieldDefinition));
    repeat match goal with H : g_dirs _ _ _ _ _ _ _ |- _ => apply g_dirs_suffix in H end; by_chain.
Qed.
Lemma g_optype_suffix : sfx (g_optype lv).
Proof. intros ts a r H. inversion H; subst; use g_opkind_suffix; use (g_named_suffix lv); by_chain. Qed.
Lemma g_schema_suffix : sfx (g_schema fok lv).
Proof. intros ts a r H. inversion H; subst; usedirs; use (many1_suffix _ g_optype_suffix); by_chain. Qed.
Lemma g_schemaext_suffix : sfx (g_schemaext fok lv).
Proof. intros ts a r H. inversion H; subst; usedirs; use (g_block_suffix _ g_optype_suffix); by_chain. Qed.
Lemma g_dirloc_suffix : sfx (g_dirloc lv).
Proof. intros ts a r H. inversion H; by_chain. Qed.
Lemma g_dirdef_suffix d : sfx (g_dirdef fok lv d).
Proof. intros ts a r H. inversion H; subst; use g_argdefs_suffix; use (sep1_suffix "|" _ g_dirloc_suffix); by_chain. Qed.
Lemma g_body_suffix : sfx (g_body fok lv).
Proof.
  intros ts a r H. inversion H; subst; use g_op_suffix; use g_frag_suffix; use g_schema_suffix; use g_desc_suffix; repeat match goal with H : g_tydef _ _ _ _ _ _ |- _ => apply g_tydef_suffix in H end;
    repeat match goal with H : g_dirdef _ _ _ _ _ _ |- _ => apply g_dirdef_suffix in H end; use g_schemaext_suffix;  by_chain.
Qed.
Lemma g_def_suffix : sfx (g_def fok lv).
Proof. intros ts a r []. eapply g_body_suffix; eassumption. Qed.
End Suffix.

(** ** Moving between levels. *)
(** Every type reference of the definition (not those under "on", which are always plain names) satisfies [T]. *)
Definition iv_types (T : ty -> Prop) (i : ivdef) : Prop := T (i_type i).
Definition fd_types (T : ty -> Prop) (f : fielddef) : Prop := T (fd_type f) /\ Forall (iv_types T) (fd_args f).
Definition td_types (T : ty -> Prop) (t : tydef) : Prop :=
  Forall T (t_impl t) /\ Forall (fd_types T) (t_fields t) /\ Forall T (t_members t) /\ Forall (iv_types T) (t_inputs t).
Definition body_types (T : ty -> Prop) (b : body) : Prop :=
  match b with
  | DOp o => Forall (fun v => T (v_type v)) (o_vars o)
  | DType t | XType t => td_types T t
  | DDir d => Forall (iv_types T) (dd_args d)
  | _ => True
  end.
(** No list type without an item type. *)
Fixpoint closed_type (t : ty) : Prop := match t with TNamed _ _ => True | TList t _ => closed_type t | TListNil => False end.

Section Up.
Variable fok : bytes -> bool.
Variables lv lv' : level.
Hypothesis Hl : lenient lv -> lenient lv'.
Variable T : ty -> Prop.
Hypothesis HT : forall ts t r, g_type lv ts t r -> T t -> g_type lv' ts t r.

Definition upC {A} (C : A -> Prop) (g g' : G A) : Prop := forall ts a r, g ts a r -> C a -> g' ts a r.
Definition up {A} (g g' : G A) : Prop := forall ts a r, g ts a r -> g' ts a r.

Definition many_up {A} (g g' : G A) (f : up g g') : up (many g) (many g') :=
  fix go ts l r (H : many g ts l r) : many g' ts l r :=
    match H with
    | many_nil _ ts => many_nil g' ts
    | many_cons _ ts a r1 l r H1 H2 => many_cons g' _ _ _ _ _ (f _ _ _ H1) (go _ _ _ H2)
    end.
Lemma many_upC {A} (C : A -> Prop) (g g' : G A) : upC C g g' -> upC (Forall C) (many g) (many g').
Proof.
  intros f ts l r H. induction H as [ts|ts a r1 l r H1 H2 IH]; intros HC; [constructor|].
  inversion HC; subst. econstructor; [apply f; eassumption|apply IH; assumption].
Qed.
Lemma many1_upC {A} (C : A -> Prop) (g g' : G A) : upC C g g' -> upC (Forall C) (many1 g) (many1 g').
Proof. intros f ts l r [H Hn] HC. split; [|exact Hn]. eapply many_upC; eassumption. Qed.
Lemma sep1_upC {A} (C : A -> Prop) s (g g' : G A) : upC C g g' -> upC (Forall C) (sep1 s g) (sep1 s g').
Proof.
  intros f ts l r H. induction H; intros HC; inversion HC; subst; [apply sep_one; auto|eapply sep_more; eauto].
Qed.

Lemma int_up s z : int_denotes lv s z -> int_denotes lv' s z.
Proof. intros H. inversion H; subst; [apply id_pos|apply id_neg|apply id_plus]; auto. Qed.
Lemma named_up : up (g_named lv) (g_named lv').
Proof. intros ts t r H. inversion H; subst; [apply nm_plain|eapply nm_bang]; eauto. Qed.
Lemma member_up : upC T (g_member lv) (g_member lv').
Proof. intros ts t r H HC. inversion H; subst; [apply mb_plain; assumption|apply mb_any; auto]. Qed.

Fixpoint value_up c ts v r (H : g_value fok lv c ts v r) {struct H} : g_value fok lv' c ts v r :=
  match H with
  | v_var _ _ _ ts r1 n r H0 H1 H2 =>
      v_var _ _ _ ts r1 n r (match H0 with or_introl a => or_introl a | or_intror b => or_intror (Hl b) end) H1 H2
  | v_int _ _ _ ts lit z r H Hi H64 => v_int _ _ _ ts lit z r H (int_up _ _ Hi) H64
  | v_float _ _ _ ts lit r H Hf => v_float _ _ _ ts lit r H Hf
  | v_string _ _ _ ts s r H => v_string _ _ _ ts s r H
  | v_true _ _ _ ts r H => v_true _ _ _ ts r H
  | v_false _ _ _ ts r H => v_false _ _ _ ts r H
  | v_null _ _ _ ts r H => v_null _ _ _ ts r H
  | v_enum _ _ _ ts n r H a b d => v_enum _ _ _ ts n r H a b d
  | v_list _ _ _ ts r1 l r2 r H1 H2 H3 => v_list _ _ _ ts r1 l r2 r H1 (many_up _ _ (value_up c) _ _ _ H2) H3
  | v_object _ _ _ ts r1 l r2 r H1 H2 H3 => v_object _ _ _ ts r1 l r2 r H1 (many_up _ _ (ofield_up c) _ _ _ H2) H3
  end
with ofield_up c ts v r (H : g_ofield fok lv c ts v r) {struct H} : g_ofield fok lv' c ts v r :=
  match H with of_intro _ _ _ ts n r1 r2 v r H1 H2 H3 => of_intro _ _ _ ts n r1 r2 v r H1 H2 (value_up c _ _ _ H3) end.

Lemma default_up : up (g_default fok lv) (g_default fok lv').
Proof. intros ts a r H. inversion H; subst; econstructor; eauto using value_up. Qed.
Lemma arg_up c : up (g_arg fok lv c) (g_arg fok lv' c).
Proof. intros ts a r H. inversion H; subst; econstructor; eauto using value_up. Qed.
Lemma args_up c : up (g_args fok lv c) (g_args fok lv' c).
Proof.
  intros ts a r H. inversion H; subst; econstructor; eauto; [eapply (many_up _ _ (arg_up c)); eassumption|]. intuition.
Qed.
Lemma dir_up c l : up (g_dir fok lv c l) (g_dir fok lv' c l).
Proof. intros ts a r H. inversion H; subst; econstructor; eauto. apply args_up; assumption. Qed.
Lemma dirs_up c l : up (g_dirs fok lv c l) (g_dirs fok lv' c l).
Proof. exact (many_up _ _ (dir_up c l)). Qed.
Lemma cond_up : up (g_cond lv) (g_cond lv').
Proof. intros ts a r H. inversion H; subst; econstructor; eauto. apply named_up; assumption. Qed.
Lemma opt_cond_up : up (g_opt_cond lv) (g_opt_cond lv').
Proof. intros ts a r H. inversion H; subst; econstructor; eauto. apply cond_up; assumption. Qed.
Fixpoint sel_up ts v r (H : g_sel fok lv ts v r) {struct H} : g_sel fok lv' ts v r :=
  match H with
  | sel_field _ _ ts al n r1 args r2 ds r3 ss r H1 H2 H3 H4 =>
      sel_field _ _ ts al n r1 args r2 ds r3 ss r H1 (args_up _ _ _ _ H2) (dirs_up _ _ _ _ _ H3) (opt_selset_up _ _ _ H4)
  | sel_spread _ _ ts r1 n r2 ds r H1 H2 Hn H3 => sel_spread _ _ ts r1 n r2 ds r H1 H2 Hn (dirs_up _ _ _ _ _ H3)
  | sel_inline _ _ ts r1 c r2 ds r3 ss r H1 H2 H3 H4 =>
      sel_inline _ _ ts r1 c r2 ds r3 ss r H1 (opt_cond_up _ _ _ H2) (dirs_up _ _ _ _ _ H3) (selset_up _ _ _ H4)
  end
with selset_up ts v r (H : g_selset fok lv ts v r) {struct H} : g_selset fok lv' ts v r :=
  match H with ss_intro _ _ ts r1 ss r2 r H1 H2 Hn H3 => ss_intro _ _ ts r1 ss r2 r H1 (many_up _ _ sel_up _ _ _ H2) Hn H3 end
with opt_selset_up ts v r (H : g_opt_selset fok lv ts v r) {struct H} : g_opt_selset fok lv' ts v r :=
  match H with os_none _ _ ts => os_none _ _ ts | os_some _ _ ts ss r H => os_some _ _ ts ss r (selset_up _ _ _ H) end.

Lemma vardef_up : upC (fun v => T (v_type v)) (g_vardef fok lv) (g_vardef fok lv').
Proof. intros ts a r H HC. inversion H; subst; econstructor; eauto. apply default_up; assumption. Qed.
Lemma vardefs_up : upC (Forall (fun v => T (v_type v))) (g_vardefs fok lv) (g_vardefs fok lv').
Proof. intros ts a r H HC. inversion H; subst; econstructor; eauto. eapply many1_upC; [apply vardef_up|eassumption|assumption]. Qed.
Lemma ivdef_up l : upC (iv_types T) (g_ivdef fok lv l) (g_ivdef fok lv' l).
Proof. intros ts a r H HC. inversion H; subst; econstructor; eauto. apply default_up; eassumption. apply dirs_up; assumption. Qed.
Lemma argdefs_up : upC (Forall (iv_types T)) (g_argdefs fok lv) (g_argdefs fok lv').
Proof. intros ts a r H HC. inversion H; subst; econstructor; eauto. eapply many1_upC; [apply ivdef_up|eassumption|assumption]. Qed.
Lemma fielddef_up : upC (fd_types T) (g_fielddef fok lv) (g_fielddef fok lv').
Proof.
  intros ts a r H [HC HA]. inversion H; subst; econstructor; eauto; [apply argdefs_up; eassumption|apply dirs_up; assumption].
Qed.
Lemma enumval_up : up (g_enumval fok lv) (g_enumval fok lv').
Proof. intros ts a r H. inversion H; subst; econstructor; eauto. apply dirs_up; assumption. Qed.
Lemma block_upC {A} (C : A -> Prop) (g g' : G A) : upC C g g' -> upC (Forall C) (g_block g) (g_block g').
Proof. intros f ts a r H HC. inversion H; subst; econstructor; eauto. eapply many1_upC; eassumption. Qed.
Lemma block_up {A} (g g' : G A) : up g g' -> up (g_block g) (g_block g').
Proof.
  intros f ts a r H. eapply (block_upC (fun _ => True)); [intros ? ? ? Hx _; apply f; exact Hx|exact H|]. apply Forall_forall. auto.
Qed.
Lemma implements_up : upC (Forall T) (g_implements lv) (g_implements lv').
Proof. intros ts a r H HC. inversion H; subst; econstructor; eauto. eapply sep1_upC; [apply member_up|eassumption|assumption]. Qed.
Lemma members_up : upC (Forall T) (g_members lv) (g_members lv').
Proof. intros ts a r H HC. inversion H; subst; econstructor; eauto. eapply sep1_upC; [apply member_up|eassumption|assumption]. Qed.
Lemma tydef_up d : upC (td_types T) (g_tydef fok lv d) (g_tydef fok lv' d).
Proof.
  intros ts a r H (H1 & H2 & H3 & H4).
  inversion H; subst; cbn in H1, H2, H3, H4; econstructor; eauto;
    try (apply dirs_up; eassumption); try (apply implements_up; eassumption); try (apply members_up; eassumption);
    try (eapply block_upC; [apply fielddef_up|eassumption|assumption]);
    try (eapply block_up; [apply enumval_up|eassumption]);
    (eapply block_upC; [apply ivdef_up|eassumption|assumption]).
Qed.
Lemma optype_up : up (g_optype lv) (g_optype lv').
Proof. intros ts a r H. inversion H; subst; econstructor; eauto. apply named_up; assumption. Qed.
Lemma schema_up : up (g_schema fok lv) (g_schema fok lv').
Proof.
  intros ts a r H. inversion H; subst; econstructor; eauto; [apply dirs_up; eassumption|].
  match goal with H : many1 _ _ _ _ |- _ => destruct H as [H Hn] end. split; [|exact Hn]. eapply (many_up _ _ optype_up). eassumption.
Qed.
Lemma schemaext_up : up (g_schemaext fok lv) (g_schemaext fok lv').
Proof. intros ts a r H. inversion H; subst; econstructor; eauto; [apply dirs_up; eassumption|]. eapply block_up; [apply optype_up|assumption]. Qed.
Lemma dirdef_up d : upC (fun x => Forall (iv_types T) (dd_args x)) (g_dirdef fok lv d) (g_dirdef fok lv' d).
Proof.
  intros ts a r H HC. inversion H; subst; cbn in HC; econstructor; eauto; [apply argdefs_up; eassumption|].
  eapply (sep1_upC (fun _ => True)); [|eassumption|apply Forall_forall; auto].
  intros ? ? ? Hx _. inversion Hx; subst. econstructor; eauto. intuition.
Qed.
Lemma body_up : upC (body_types T) (g_body fok lv) (g_body fok lv').
Proof.
  intros ts b r H HC. inversion H; subst; cbn in HC.
  - apply b_op. match goal with H : g_op _ _ _ _ _ |- _ => inversion H; subst end; cbn in HC.
    + apply op_short. apply selset_up. assumption.
    + eapply op_long; eauto; [apply vardefs_up; eassumption|apply dirs_up; eassumption|apply selset_up; assumption].
  - apply b_frag. match goal with H : g_frag _ _ _ _ _ |- _ => inversion H; subst end.
    econstructor; eauto; [apply cond_up; eassumption|apply dirs_up; eassumption|apply selset_up; assumption].
  - apply b_schema. apply schema_up. assumption.
  - eapply b_schema_desc; [auto|eassumption|]. apply schema_up. assumption.
  - eapply b_type; [eassumption|]. apply tydef_up; assumption.
  - eapply b_dir; [eassumption|]. apply dirdef_up; assumption.
  - eapply b_xschema; [eassumption|]. apply schemaext_up; assumption.
  - eapply b_xtype; [eassumption|apply tydef_up; eassumption|intuition].
Qed.
Lemma defs_up ts ds r : g_defs fok lv ts ds r -> Forall (fun d => body_types T (def_body d)) ds -> g_defs fok lv' ts ds r.
Proof.
  assert (Hd : forall ts d r, g_def fok lv ts d r -> body_types T (def_body d) -> g_def fok lv' ts d r).
  { intros ts' d r' [] HC. constructor. apply body_up; assumption. }
  induction 1; intros HC; inversion HC; subst; [apply ds_one|eapply ds_more]; eauto.
Qed.
End Up.

Theorem june_lenient fok lv ts ds : lv <> June2018 -> g_document fok June2018 ts ds -> g_document fok lv ts ds.
Proof.
  intros Hlv (e & He & H). exists e. split; [exact He|].
  eapply (defs_up fok June2018 lv) with (T := fun _ => True); [intros Hj; exfalso; apply Hj; reflexivity| |exact H|].
  - intros ts' t r Ht _. induction Ht; try congruence; econstructor; eassumption.
  - apply Forall_forall. intros [l c b] _. cbn. assert (Hf : forall A (P : A -> Prop) l, (forall x, P x) -> Forall P l) by (intros; apply Forall_forall; auto).
    destruct b; cbn; auto; repeat split; apply Hf; unfold iv_types, fd_types; auto.
    all: intros x; split; [exact I|]; apply Hf; intros; exact I.
Qed.
Theorem closed_lenient fok ts ds : g_document fok Any ts ds -> Forall (fun d => body_types closed_type (def_body d)) ds ->
  g_document fok Lenient ts ds.
Proof.
  intros (e & He & H) Hc. exists e. split; [exact He|].
  eapply (defs_up fok Any Lenient) with (T := closed_type); [intros _; discriminate| |exact H|exact Hc].
  intros ts' t r Ht. induction Ht; cbn; intros Hcl; try contradiction; econstructor; eauto.
Qed.
(** The lenient grammar never yields a broken list type, so the two statements together are exact. *)
Section LenientClosed.
Variable fok : bytes -> bool.
Variable lv : level.
Hypothesis Hlv : lv <> Any.
Definition yields {A} (g : G A) (C : A -> Prop) : Prop := forall ts a r, g ts a r -> C a.
Lemma many_yields {A} (g : G A) C : yields g C -> yields (many g) (Forall C).
Proof. intros f ts l r H. induction H; constructor; eauto. Qed.
Lemma sep1_yields {A} s (g : G A) C : yields g C -> yields (sep1 s g) (Forall C).
Proof. intros f ts l r H. induction H; constructor; eauto. Qed.
Lemma block_yields {A} (g : G A) C : yields g C -> yields (g_block g) (Forall C).
Proof. intros f ts l r H. inversion H; subst; [constructor|]. match goal with H : many1 _ _ _ _ |- _ => destruct H end. eapply many_yields; eassumption. Qed.
Lemma type_closed : yields (g_type lv) closed_type.
Proof. intros ts t r H. induction H; cbn; auto; congruence. Qed.
Lemma member_closed : yields (g_member lv) closed_type.
Proof. intros ts t r H. inversion H; subst; [exact I|]. eapply type_closed; eassumption. Qed.
Lemma ivdef_closed l : yields (g_ivdef fok lv l) (iv_types closed_type).
Proof. intros ts t r H. inversion H; subst. unfold iv_types. cbn. eapply type_closed; eassumption. Qed.
Lemma argdefs_closed : yields (g_argdefs fok lv) (Forall (iv_types closed_type)).
Proof.
  intros ts t r H. inversion H; subst; [constructor|]. match goal with H : many1 _ _ _ _ |- _ => destruct H end.
  eapply many_yields; [apply ivdef_closed|eassumption].
Qed.
Lemma fielddef_closed : yields (g_fielddef fok lv) (fd_types closed_type).
Proof. intros ts t r H. inversion H; subst. split; cbn; [eapply type_closed; eassumption|eapply argdefs_closed; eassumption]. Qed.
Lemma tydef_closed d : yields (g_tydef fok lv d) (td_types closed_type).
Proof.
  intros ts t r H. inversion H; subst; unfold td_types; cbn; repeat split; try constructor;
    try (eapply block_yields; [apply fielddef_closed|eassumption]); try (eapply block_yields; [apply ivdef_closed|eassumption]);
    try match goal with H : g_implements _ _ _ _ |- _ => inversion H; subst; [constructor|] end;
    try match goal with H : g_members _ _ _ _ |- _ => inversion H; subst; [constructor|] end;
    eapply sep1_yields; try apply member_closed; eassumption.
Qed.
Lemma body_closed : yields (g_body fok lv) (body_types closed_type).
Proof.
  intros ts b r H. inversion H; subst; cbn; auto.
  - match goal with H : g_op _ _ _ _ _ |- _ => inversion H; subst end; cbn; [constructor|].
    match goal with H : g_vardefs _ _ _ _ _ |- _ => inversion H; subst end; [constructor|].
    match goal with H : many1 _ _ _ _ |- _ => destruct H end. eapply many_yields; [|eassumption].
    intros ? ? ? Hx. inversion Hx; subst. cbn. eapply type_closed; eassumption.
  - eapply tydef_closed; eassumption.
  - match goal with H : g_dirdef _ _ _ _ _ _ |- _ => inversion H; subst end. cbn. eapply argdefs_closed; eassumption.
  - eapply tydef_closed; eassumption.
Qed.
Theorem lenient_closed ts ds : g_document fok lv ts ds -> Forall (fun d => body_types closed_type (def_body d)) ds.
Proof.
  intros (e & _ & H).
  assert (Hd : forall ts d r, g_def fok lv ts d r -> body_types closed_type (def_body d)) by (intros ? ? ? []; eapply body_closed; eassumption).
  induction H; constructor; eauto.
Qed.
End LenientClosed.
Theorem lenient_any fok ts ds : g_document fok Lenient ts ds -> g_document fok Any ts ds.
Proof.
  intros H. pose proof (lenient_closed fok Lenient ltac:(discriminate) _ _ H) as Hc. destruct H as (e & He & H). exists e. split; [exact He|].
  eapply (defs_up fok Lenient Any) with (T := closed_type); [intros _; discriminate| |exact H|exact Hc].
  intros ts' t r Ht _. induction Ht; try congruence; econstructor; eassumption.
Qed.
