(** * WrittenProofs: every derivation of the grammar takes the texts and pays for the nodes of what it derives. *)
From Verif Require Import Base Utf8 Lexer AST Grammar GrammarFrame Written.

Lemma within_nil {A} (m : list A) : within [] m.
Proof. induction m; constructor; assumption. Defined.
Lemma within_app {A} (l m l' m' : list A) : within l m -> within l' m' -> within (l ++ l') (m ++ m').
Proof. intros H H'. induction H; cbn [app]; [exact H'|apply wi_skip; assumption|apply wi_keep; assumption]. Defined.
Lemma within_in {A} (l m : list A) x : within l m -> In x l -> In x m.
Proof. intros H. induction H; cbn [In]; intuition. Qed.
Lemma within_length {A} (l m : list A) : within l m -> List.length l <= List.length m.
Proof. intros H. induction H; cbn [List.length]; lia. Qed.
Lemma within_trans {A} (l m k : list A) : within l m -> within m k -> within l k.
Proof.
  intros H1 H2. revert l H1. induction H2 as [|x m k H IH|x m k H IH]; intros l H1; [exact H1|constructor; auto|].
  inversion H1; subst; [apply wi_skip; auto|apply wi_keep; auto].
Qed.

Definition took (l : list text) (n : nat) (ts r : list token) : Prop :=
  exists p, ts = p ++ r /\ within l (map face p) /\ n <= List.length p.
Definition pays {A} (g : G A) (f : A -> list text) (s : A -> nat) : Prop := forall ts a r, g ts a r -> took (f a) (s a) ts r.
Lemma took_refl ts : took [] 0 ts ts.
Proof. exists []. split; [reflexivity|]. split; [constructor|cbn; lia]. Defined.
Lemma took_seq l n l' n' ts r1 r : took l n ts r1 -> took l' n' r1 r -> took (l ++ l') (n + n') ts r.
Proof.
  intros (p & -> & H1 & L1) (q & -> & H2 & L2). exists (p ++ q). split; [apply app_assoc|]. rewrite map_app, app_length. split; [apply within_app; assumption|lia].
Defined.
Lemma took_weak l n l' n' ts r : l' = l -> n' <= n -> took l n ts r -> took l' n' ts r.
Proof. intros -> Hn (p & E & H & L). exists p. repeat split; [exact E|exact H|lia]. Defined.
Lemma took_keep k lit ts r : terminal k lit ts r -> took [(k, lit)] 1 ts r.
Proof. intros [l c r0]. exists [mkTok k lit l c]. split; [reflexivity|]. split; [cbn; apply wi_keep, wi_nil|cbn; lia]. Defined.
Lemma took_skip k lit ts r : terminal k lit ts r -> took [] 1 ts r.
Proof. intros [l c r0]. exists [mkTok k lit l c]. split; [reflexivity|]. split; [apply within_nil|cbn; lia]. Defined.
Lemma took_maybe s ts r : maybe s ts r -> took [] 0 ts r.
Proof. intros [->|H]; [apply took_refl|]. eapply took_weak; [reflexivity| |eapply took_skip, H]. lia. Defined.
Lemma many_pays {A} (g : G A) f s : pays g f s -> pays (many g) (flat_map f) (total s).
Proof.
  intros F. unfold pays. fix go 4. intros ts l r H. destruct H as [ts|ts a r1 l r H1 H2]; [apply took_refl|]. exact (took_seq _ _ _ _ _ _ _ (F _ _ _ H1) (go _ _ _ H2)).
Defined.
Lemma many1_pays {A} (g : G A) f s : pays g f s -> pays (many1 g) (flat_map f) (total s).
Proof. intros F ts l r [H _]. exact (many_pays g f s F _ _ _ H). Qed.
Lemma sep1_pays {A} t (g : G A) f s : pays g f s -> pays (sep1 t g) (flat_map f) (total s).
Proof.
  intros F ts l r H. induction H as [ts a r H|ts a r1 r2 l r H1 H2 _ IH].
  - eapply took_weak; [| |exact (F _ _ _ H)]; cbn [flat_map total fold_right]; [apply app_nil_r|lia].
  - eapply took_weak; [| |exact (took_seq _ _ _ _ _ _ _ (F _ _ _ H1) (took_seq _ _ _ _ _ _ _ (took_skip _ _ _ _ H2) IH))]; cbn [flat_map total fold_right app]; [reflexivity|unfold total; lia].
Qed.

(** Punctuators and keywords are skipped, everything else is kept; then the pieces are chained. *)
Ltac tfacts := repeat match goal with
  | H : terminal KPunct _ _ _ |- _ => apply took_skip in H
  | H : terminal KName (B _) _ _ |- _ => apply took_skip in H
  | H : terminal _ _ _ _ |- _ => apply took_keep in H
  | H : maybe _ _ _ |- _ => apply took_maybe in H
  end.
Ltac tchain := match goal with
  | |- took _ _ ?r ?r => apply took_refl
  | H : took _ _ ?ts _ |- took _ _ ?ts _ => eapply took_seq; [exact H|]; clear H; tchain
  end.
Ltac sizes := unfold total in *; cbn [fold_right map Nat.add] in *; lia.
Ltac by_took := subst; tfacts; eapply took_weak; [| |tchain]; [cbn [app flat_map given]; rewrite ?app_nil_r, <- ?app_assoc; try reflexivity|try sizes].
Ltac use L := repeat match goal with H : _ |- _ => apply L in H; cbv beta in H end.

Lemma g_type_pays lv : pays (g_type lv) ty_texts ty_size.
Proof.
  intros ts a r H. induction H as [ts n r H|ts n r1 r H1 H2|ts r1 t r2 r H1 H2 IH H3|ts r1 t r2 r3 r H1 H2 IH H3 H4|ts r L H N1 N2|ts r1 r2 t r L H1 H2 H3 IH N]; cbn [ty_texts ty_size].
  - by_took. - by_took. - clear H2. by_took. - clear H2. by_took. - by_took.
  - clear H3. apply took_skip in H1, H2. destruct (took_seq _ _ _ _ _ _ _ H1 (took_seq _ _ _ _ _ _ _ H2 IH)) as (p & E & W & Hn). exists p. split; [exact E|]. split; [apply within_nil|lia].
Qed.
Lemma g_named_pays lv : pays (g_named lv) ty_texts ty_size.
Proof. intros ts a r H. inversion H; cbn [ty_texts ty_size]; by_took. Qed.
Lemma g_member_pays lv : pays (g_member lv) ty_texts ty_size.
Proof. intros ts a r H. inversion H; subst; [cbn [ty_texts ty_size]; by_took|]. eapply g_type_pays; eassumption. Qed.

Section Pays.
Variable fok : bytes -> bool.
Variable lv : level.

Definition of_texts (f : bytes * value) : list text := nm (fst f) :: value_texts (snd f).
Definition of_size (f : bytes * value) : nat := S (value_size (snd f)).
Fixpoint g_value_pays const ts v r (H : g_value fok lv const ts v r) {struct H} : took (value_texts v) (value_size v) ts r
with g_ofield_pays const ts v r (H : g_ofield fok lv const ts v r) {struct H} : took (of_texts v) (of_size v) ts r.
Proof.
  - destruct H as [ts r1 n r Hc H1 H2|ts lit z r H1 H2 H3|ts lit r H1 H2|ts s r H1|ts r H1|ts r H1|ts r H1|ts n r H1 N1 N2 N3|ts r1 l r2 r H1 H2 H3|ts r1 l r2 r H1 H2 H3].
    all: try (clear g_value_pays g_ofield_pays; cbn [value_texts value_size]; first [by_took; fail|apply took_keep; exact H1|eapply took_skip; exact H1]).
    + pose proof (many_pays _ _ _ (g_value_pays const) _ _ _ H2) as H. clear H2 g_value_pays g_ofield_pays. cbn [value_texts value_size]. by_took.
    + pose proof (many_pays _ _ _ (g_ofield_pays const) _ _ _ H2) as H. clear H2 g_value_pays g_ofield_pays. change (took (flat_map of_texts l) (S (total of_size l)) ts r). by_took.
  - destruct H as [ts n r1 r2 v r H1 H2 H3]. apply g_value_pays in H3. clear g_value_pays g_ofield_pays. unfold of_texts, of_size. cbn [fst snd]. by_took.
Qed.
Lemma g_default_pays : pays (g_default fok lv) default_texts default_size.
Proof. intros ts a r H. inversion H; subst; use (g_value_pays true); cbn [default_texts default_size]; by_took. Qed.
Lemma g_arg_pays c : pays (g_arg fok lv c) arg_texts arg_size.
Proof. intros ts a r H. inversion H; subst; use (g_value_pays c); unfold arg_texts, arg_size; cbn [arg_name arg_value]; by_took. Qed.
Lemma g_args_pays c : pays (g_args fok lv c) (flat_map arg_texts) (total arg_size).
Proof. intros ts a r H. inversion H; subst; use (many_pays _ _ _ (g_arg_pays c)); by_took. Qed.
Lemma g_dir_pays c l : pays (g_dir fok lv c l) dir_texts dir_size.
Proof. intros ts a r H. inversion H; subst; use (g_args_pays c); unfold dir_texts, dir_size; cbn [d_name d_args]; by_took. Qed.
Lemma g_dirs_pays c l : pays (g_dirs fok lv c l) dirs_texts dirs_size.
Proof. exact (many_pays _ _ _ (g_dir_pays c l)). Qed.
Ltac usedirs := repeat match goal with H : g_dirs _ _ _ _ _ _ _ |- _ => apply g_dirs_pays in H end.
Lemma g_cond_pays : pays (g_cond lv) ty_texts ty_size.
Proof. intros ts a r H. inversion H; subst; use g_named_pays; by_took. Qed.
Lemma g_opt_cond_pays : pays (g_opt_cond lv) (fun o => match o with Some t => ty_texts t | None => [] end) (fun o => match o with Some t => ty_size t | None => 0 end).
Proof. intros ts a r H. inversion H; subst; use g_cond_pays; by_took. Qed.
Lemma g_alias_pays : pays g_alias (fun p => given KName (fst p) ++ [nm (snd p)]) (fun _ => 1).
Proof.
  intros ts a r H. inversion H; subst; cbn [fst snd]; [by_took|]. tfacts. destruct a0 as [|b a0]; [|by_took].
  cbn [given app]. destruct (took_seq _ _ _ _ _ _ _ H0 (took_seq _ _ _ _ _ _ _ H1 H2)) as (p & E & W & Hn). exists p. split; [exact E|]. cbn [app] in W. split; [|lia].
  eapply within_trans; [|exact W]. apply wi_skip, wi_keep, wi_nil.
Qed.

Fixpoint g_sel_pays ts v r (H : g_sel fok lv ts v r) {struct H} : took (sel_texts v) (sel_size v) ts r
with g_selset_pays ts v r (H : g_selset fok lv ts v r) {struct H} : took (flat_map sel_texts v) (S (total sel_size v)) ts r
with g_opt_selset_pays ts v r (H : g_opt_selset fok lv ts v r) {struct H} : took (flat_map sel_texts v) (total sel_size v) ts r.
Proof.
  - destruct H as [ts al n r1 args r2 ds r3 ss r H1 H2 H3 H4|ts r1 n r2 ds r H1 H2 Hn H3|ts r1 c r2 ds r3 ss r H1 H2 H3 H4]; cbn [sel_texts sel_size].
    + apply g_opt_selset_pays in H4. clear g_sel_pays g_selset_pays g_opt_selset_pays. usedirs. use (g_args_pays false). use g_alias_pays. cbn [fst snd] in H1. by_took.
    + clear g_sel_pays g_selset_pays g_opt_selset_pays. usedirs. by_took.
    + apply g_selset_pays in H4. clear g_sel_pays g_selset_pays g_opt_selset_pays. usedirs. use g_opt_cond_pays. by_took.
  - destruct H as [ts r1 ss r2 r H1 H2 Hn H3]. pose proof (many_pays _ _ _ g_sel_pays _ _ _ H2) as H. clear H2 g_sel_pays g_selset_pays g_opt_selset_pays. by_took.
  - destruct H as [ts|ts ss r H]; [clear g_sel_pays g_selset_pays g_opt_selset_pays; by_took|]. apply g_selset_pays in H. clear g_sel_pays g_selset_pays g_opt_selset_pays. by_took.
Qed.
Lemma g_vardef_pays : pays (g_vardef fok lv) var_texts var_size.
Proof. intros ts a r H. inversion H; subst; use g_default_pays; use g_type_pays; unfold var_texts, var_size; cbn [v_name v_type v_default]; by_took. Qed.
Lemma g_vardefs_pays : pays (g_vardefs fok lv) (flat_map var_texts) (total var_size).
Proof. intros ts a r H. inversion H; subst; use (many1_pays _ _ _ g_vardef_pays); by_took. Qed.
Lemma g_opkind_pays : pays g_opkind (fun _ => []) (fun _ => 1).
Proof. intros ts a r H. inversion H; by_took. Qed.
Lemma g_opt_name_pays : pays g_opt_name (given KName) (fun _ => 0).
Proof. intros ts a r H. inversion H as [ts0|ts0 n r0 Hn]; subst; [by_took|]. destruct a as [|b a]; [apply took_skip in Hn; by_took|by_took]. Qed.
Lemma g_op_pays : pays (g_op fok lv) op_texts op_size.
Proof.
  intros ts a r H. inversion H; subst; use g_selset_pays; usedirs; use g_vardefs_pays; use g_opt_name_pays; use g_opkind_pays; unfold op_texts, op_size; cbn [o_name o_vars o_dirs o_sels]; unfold dirs_size, dirs_texts in *; by_took.
Qed.
Lemma g_frag_pays : pays (g_frag fok lv) frag_texts frag_size.
Proof. intros ts a r H. inversion H; subst; use g_selset_pays; usedirs; use g_cond_pays; unfold frag_texts, frag_size; cbn [f_name f_cond f_dirs f_sels]; by_took. Qed.
Lemma g_desc_pays : pays g_desc (given KString) (fun _ => 0).
Proof. intros ts a r H. inversion H as [ts0|ts0 n r0 Hn]; subst; [by_took|]. destruct a as [|b a]; [apply took_skip in Hn; by_took|by_took]. Qed.
Lemma g_ivdef_pays l : pays (g_ivdef fok lv l) iv_texts iv_size.
Proof. intros ts a r H. inversion H; subst; use g_default_pays; use g_type_pays; usedirs; use g_desc_pays; unfold iv_texts, iv_size; cbn [i_desc i_name i_type i_default i_dirs]; by_took. Qed.
Lemma g_argdefs_pays : pays (g_argdefs fok lv) (flat_map iv_texts) (total iv_size).
Proof. intros ts a r H. inversion H; subst; use (many1_pays _ _ _ (g_ivdef_pays LArgumentDefinition)); by_took. Qed.
Lemma g_fielddef_pays : pays (g_fielddef fok lv) fd_texts fd_size.
Proof. intros ts a r H. inversion H; subst; use g_argdefs_pays; use g_type_pays; usedirs; use g_desc_pays; unfold fd_texts, fd_size; cbn [fd_desc fd_name fd_args fd_type fd_dirs]; by_took. Qed.
Lemma g_enumval_pays : pays (g_enumval fok lv) ev_texts ev_size.
Proof. intros ts a r H. inversion H; subst; usedirs; use g_desc_pays; unfold ev_texts, ev_size; cbn [ev_desc ev_name ev_dirs]; by_took. Qed.
Lemma g_block_pays {A} (g : G A) f s : pays g f s -> pays (g_block g) (flat_map f) (total s).
Proof. intros F ts a r H. inversion H; subst; [by_took|]. use (many1_pays _ _ _ F). by_took. Qed.
Lemma g_implements_pays : pays (g_implements lv) (flat_map ty_texts) (total ty_size).
Proof. intros ts a r H. inversion H; subst; [by_took|]. use (sep1_pays "&" _ _ _ (g_member_pays lv)). by_took. Qed.
Lemma g_members_pays : pays (g_members lv) (flat_map ty_texts) (total ty_size).
Proof. intros ts a r H. inversion H; subst; [by_took|]. use (sep1_pays "|" _ _ _ (g_member_pays lv)). by_took. Qed.
Lemma g_tydef_pays desc : pays (g_tydef fok lv desc) td_inside td_size.
Proof.
  intros ts a r H. inversion H; subst; use (g_block_pays _ _ _ g_fielddef_pays); use (g_block_pays _ _ _ g_enumval_pays); use (g_block_pays _ _ _ (g_ivdef_pays LInputFieldDefinition));
  use g_implements_pays; use g_members_pays; usedirs; unfold td_inside, td_size; cbn [t_name t_impl t_dirs t_fields t_members t_values t_inputs]; by_took.
Qed.
Lemma g_optype_pays : pays (g_optype lv) (fun o => ty_texts (ot_type o)) (fun o => S (ty_size (ot_type o))).
Proof. intros ts a r H. inversion H; subst; use g_opkind_pays; use g_named_pays; cbn [ot_type]; by_took. Qed.
Lemma g_schema_pays : pays (g_schema fok lv) sd_texts sd_size.
Proof. intros ts a r H. inversion H; subst; use (many1_pays _ _ _ g_optype_pays); usedirs; unfold sd_texts, sd_size; cbn [s_dirs s_ops]; by_took. Qed.
Lemma g_schemaext_pays : pays (g_schemaext fok lv) sd_texts sd_size.
Proof. intros ts a r H. inversion H; subst; use (g_block_pays _ _ _ g_optype_pays); usedirs; unfold sd_texts, sd_size; cbn [s_dirs s_ops]; by_took. Qed.
Lemma g_dirloc_pays : pays (g_dirloc lv) (fun _ => []) (fun _ => 0).
Proof. intros ts a r H. inversion H; subst. apply took_skip in H0. by_took. Qed.
Lemma no_texts {A} (l : list A) : flat_map (fun _ => @nil text) l = [].
Proof. induction l; [reflexivity|exact IHl]. Qed.
Lemma g_dirdef_pays desc : pays (g_dirdef fok lv desc) dd_inside dd_size.
Proof.
  intros ts a r H. inversion H; subst; use (sep1_pays "|" _ _ _ g_dirloc_pays); use g_argdefs_pays; unfold dd_inside, dd_size; cbn [dd_name dd_args]; subst; tfacts.
  eapply took_weak; [| |tchain]; [cbn [app]; rewrite no_texts, ?app_nil_r, <- ?app_assoc; reflexivity|sizes].
Qed.
Lemma g_body_pays : pays (g_body fok lv) body_texts body_size.
Proof.
  intros ts a r H. inversion H; subst; cbn [body_texts body_size]; use g_op_pays; use g_frag_pays; use g_schema_pays; use g_schemaext_pays;
    repeat match goal with K : g_tydef _ _ ?d _ ?t _ |- _ => assert (t_desc t = d) by (inversion K; reflexivity); apply g_tydef_pays in K | K : g_dirdef _ _ ?d _ ?t _ |- _ => assert (dd_desc t = d) by (inversion K; reflexivity); apply g_dirdef_pays in K end;
    use g_desc_pays; unfold td_texts, dd_texts; repeat match goal with E : _ = _ |- _ => rewrite E; clear E end; try (by_took; fail).
  apply took_skip in H1. by_took.
Qed.
End Pays.
Lemma g_def_pays fok lv : pays (g_def fok lv) (fun d => body_texts (def_body d)) (fun d => body_size (def_body d)).
Proof. intros ts a r H. inversion H; subst; cbn [def_body]. eapply g_body_pays; eassumption. Qed.
Lemma g_defs_pays fok lv : pays (g_defs fok lv) document_texts document_size.
Proof.
  intros ts a r H. unfold document_texts, document_size. induction H as [ts d r H L|ts d r1 l r H L _ IH]; apply g_def_pays in H; cbv beta in H; clear L; by_took.
Qed.
