(** * ParserComplete: everything derivable is accepted, with the derived AST. *)
From Verif Require Import Base Utf8 Lexer AST Parser Grammar ParserWp ParserSound.
Local Open Scope p_scope.

(** ** "The next token is none of these." *)
Definition hd_in (F : list (kind * bytes)) (t : token) : bool := existsb (fun kl => is1 (fst kl) (snd kl) t) F.
Definition nh (F : list (kind * bytes)) (ts : list token) : Prop :=
  match ts with [] => True | t :: _ => hd_in F t = false end.
Definition pns (l : list string) : list (kind * bytes) := map (fun s => (KPunct, B s)) l.

Lemma is1_iff k l t : is1 k l t = true <-> tkind t = k /\ tlit t = l.
Proof.
  unfold is1. rewrite andb_true_iff, beqb_true. split; intros [H1 H2]; (split; [|exact H2]).
  - apply kind_eqb_true. exact H1.
  - rewrite H1. apply kind_eqb_refl.
Qed.
Lemma nh_in F k l t r : nh F (t :: r) -> In (k, l) F -> is1 k l t = false.
Proof.
  intros H Hin. cbn in H. destruct (is1 k l t) eqn:Ht; [|reflexivity].
  assert (hd_in F t = true) by (apply existsb_exists; exists (k, l); split; assumption). congruence.
Qed.
Lemma nh_sub F F' ts : nh F ts -> (forall x, In x F' -> In x F) -> nh F' ts.
Proof.
  destruct ts as [|t r]; [auto|]. intros H Hs. cbn. unfold hd_in. destruct (existsb _ F') eqn:He; [|reflexivity].
  apply existsb_exists in He. destruct He as ([k l] & Hin & Ht). cbn in Ht. rewrite (nh_in _ _ _ _ _ H (Hs _ Hin)) in Ht. discriminate.
Qed.
Lemma nh_term F k lit ts r : terminal k lit ts r -> hd_in F (mkTok k lit 0 0) = false -> nh F ts.
Proof. intros H Hf. inversion H; subst. exact Hf. Qed.
Lemma nh_name F n ts r : name n ts r -> Forall (fun kl => fst kl <> KName) F -> nh F ts.
Proof.
  intros H Hf. inversion H; subst. cbn. unfold hd_in. destruct (existsb _ F) eqn:He; [|reflexivity].
  apply existsb_exists in He. destruct He as ([k l'] & Hin & Ht). apply is1_iff in Ht. cbn in Ht. rewrite Forall_forall in Hf.
  specialize (Hf _ Hin). cbn in Hf. destruct Ht. congruence.
Qed.
Lemma nh_string F n ts r : terminal KString n ts r -> Forall (fun kl => fst kl <> KString) F -> nh F ts.
Proof.
  intros H Hf. inversion H; subst. cbn. unfold hd_in. destruct (existsb _ F) eqn:He; [|reflexivity].
  apply existsb_exists in He. destruct He as ([k l'] & Hin & Ht). apply is1_iff in Ht. cbn in Ht. rewrite Forall_forall in Hf.
  specialize (Hf _ Hin). cbn in Hf. destruct Ht. congruence.
Qed.

(** ** Running the primitives. *)
Lemma run_bind {A C} (m : P A) (k : A -> P C) ts a r b r' : m ts = POk a r -> k a r = POk b r' -> pbind m k ts = POk b r'.
Proof. intros H1 H2. unfold pbind. rewrite H1. exact H2. Qed.
Lemma term_wf k lit ts r : terminal k lit ts r -> lastk k = false -> wf ts -> wf r /\ List.length ts = S (List.length r).
Proof. intros H Hk Hw. inversion H; subst. split; [eapply wf_tail; eauto|reflexivity]. Qed.
Lemma is1_self k lit l c : is1 k lit (mkTok k lit l c) = true.
Proof. apply is1_iff. split; reflexivity. Qed.
Lemma is0_self k lit l c : is0 k (mkTok k lit l c) = true.
Proof. apply kind_eqb_refl. Qed.
Lemma adv k lit l c r : lastk k = false -> wf (mkTok k lit l c :: r) -> advance (mkTok k lit l c :: r) = POk tt r.
Proof. intros Hk Hw. apply advance_ok; [exact Hw|]. unfold is_last. cbn. destruct k; try discriminate; reflexivity. Qed.

Lemma run_skip1 k s ts r : terminal k (B s) ts r -> lastk k = false -> wf ts -> skip1 k s ts = POk true r.
Proof.
  intros H Hk Hw. inversion H; subst. unfold skip1, skip, pbind, tok. rewrite is1_self, adv by assumption. reflexivity.
Qed.
Lemma run_skip1_no F k s ts : wf ts -> nh F ts -> In (k, B s) F -> skip1 k s ts = POk false ts.
Proof.
  intros Hw Hn Hin. destruct (wf_cons _ Hw) as (t & r & ->). unfold skip1, skip, pbind, tok. rewrite (nh_in _ _ _ _ _ Hn Hin). reflexivity.
Qed.
Lemma run_peek1 k s ts r : terminal k (B s) ts r -> peek1 k s ts = POk true ts.
Proof. intros H. inversion H; subst. unfold peek1, peek, pbind, tok. rewrite is1_self. reflexivity. Qed.
Lemma run_peek1_no F k s ts : wf ts -> nh F ts -> In (k, B s) F -> peek1 k s ts = POk false ts.
Proof.
  intros Hw Hn Hin. destruct (wf_cons _ Hw) as (t & r & ->). unfold peek1, peek, pbind, tok. rewrite (nh_in _ _ _ _ _ Hn Hin). reflexivity.
Qed.
Lemma run_must0 k lit ts r : terminal k lit ts r -> lastk k = false -> wf ts -> exists t, must0 k ts = POk t r /\ tlit t = lit.
Proof.
  intros H Hk Hw. inversion H; subst. eexists. unfold must0, must, pbind, tok. rewrite is0_self, adv by assumption. split; reflexivity.
Qed.
Lemma run_must1 k s ts r : terminal k (B s) ts r -> lastk k = false -> wf ts -> exists t, must1 k s ts = POk t r.
Proof.
  intros H Hk Hw. inversion H; subst. eexists. unfold must1, must, pbind, tok. rewrite is1_self, adv by assumption. reflexivity.
Qed.
Lemma run_need k s ts r : terminal k (B s) ts r -> lastk k = false -> wf ts -> need k s ts = POk tt r.
Proof. intros H Hk Hw. unfold need. eapply run_bind; [apply run_skip1; eassumption|]. reflexivity. Qed.
Lemma run_consume0 k lit ts r : terminal k lit ts r -> lastk k = false -> wf ts -> exists t, consume0 k ts = POk (Some t) r /\ tlit t = lit.
Proof.
  intros H Hk Hw. inversion H; subst. eexists. unfold consume0, consume, pbind, tok. rewrite is0_self, adv by assumption. split; reflexivity.
Qed.
(** the next token is of another kind *)
Definition nk (k : kind) (ts : list token) : Prop := match ts with [] => True | t :: _ => tkind t <> k end.
Lemma run_consume0_no k ts : wf ts -> nk k ts -> consume0 k ts = POk None ts.
Proof.
  intros Hw Hn. destruct (wf_cons _ Hw) as (t & r & ->). unfold consume0, consume, pbind, tok, is0. cbn in Hn.
  destruct (kind_eqb (tkind t) k) eqn:He; [apply kind_eqb_true in He; congruence|reflexivity].
Qed.
Lemma nk_term k k' lit ts r : terminal k' lit ts r -> k' <> k -> nk k ts.
Proof. intros H Hk. inversion H; subst. exact Hk. Qed.

(** [comp d n p g F]: on every derivation followed by a token not in [F], [p] returns what is derived. *)
Definition comp {A} (d n : nat) (p : P A) (g : G A) (F : list (kind * bytes)) : Prop :=
  forall ts a r, g ts a r -> wf ts -> (List.length ts <= n)%nat -> nh F r ->
    p ts = POk a r /\ wf r /\ (List.length r + d <= List.length ts)%nat.

Lemma loop_until_comp {A} n m (body : P A) g F c ts l r1 r : comp 1 n body g F ->
  (forall ts a r, g ts a r -> nh F ts /\ nh [(KPunct, B c)] ts) -> hd_in F (mkTok KPunct (B c) 0 0) = false ->
  many g ts l r1 -> pun c r1 r -> wf ts -> (List.length ts <= n)%nat -> (List.length ts <= m)%nat ->
  loop_until m (skip1 KPunct c) body ts = POk l r /\ wf r /\ (List.length r + 1 <= List.length ts)%nat.
Proof.
  intros Hb Hfst HcF Hm Hc. revert m. induction Hm as [ts|ts a r0 l r1 Hg Hm IH]; intros m Hw Hn Hlm.
  - destruct m as [|m]; [pose proof (wf_len _ Hw); lia|]. destruct (term_wf _ _ _ _ Hc eq_refl Hw) as [Hr Hl].
    split; [|split; [exact Hr|lia]]. cbn [loop_until]. eapply run_bind; [apply run_skip1; [eassumption|reflexivity|assumption]|]. reflexivity.
  - destruct m as [|m]; [pose proof (wf_len _ Hw); lia|]. destruct (Hfst _ _ _ Hg) as [H1 H2].
    assert (Hr0 : nh F r0).
    { inversion Hm; subst; [eapply nh_term; eassumption|]. eapply Hfst. eassumption. }
    destruct (Hb _ _ _ Hg Hw Hn Hr0) as (Hrun & Hwr0 & Hl0).
    destruct (IH Hc m Hwr0 ltac:(lia) ltac:(lia)) as (Hrec & Hwr & Hl). split; [|split; [exact Hwr|lia]].
    cbn [loop_until]. eapply run_bind; [eapply run_skip1_no; [assumption|exact H2|left; reflexivity]|]. cbn iota.
    eapply run_bind; [exact Hrun|]. eapply run_bind; [exact Hrec|]. reflexivity.
Qed.

Lemma loop_while_comp {A} n m (body : P A) g F c ts l r : comp 1 n body g F ->
  (forall ts a r, g ts a r -> nh F ts /\ exists r', pun c ts r') ->
  many g ts l r -> nh F r -> nh [(KPunct, B c)] r -> wf ts -> (List.length ts <= n)%nat -> (List.length ts <= m)%nat ->
  loop_until m (pnot (peek1 KPunct c)) body ts = POk l r /\ wf r /\ (List.length r <= List.length ts)%nat.
Proof.
  intros Hb Hfst Hm. revert m. induction Hm as [ts|ts a r0 l r1 Hg Hm IH]; intros m HF Hnc Hw Hn Hlm.
  - destruct m as [|m]; [pose proof (wf_len _ Hw); lia|]. split; [|split; [exact Hw|lia]]. cbn [loop_until].
    eapply run_bind; [unfold pnot; eapply run_bind; [eapply run_peek1_no; [assumption|exact Hnc|left; reflexivity]|reflexivity]|]. reflexivity.
  - destruct m as [|m]; [pose proof (wf_len _ Hw); lia|]. destruct (Hfst _ _ _ Hg) as [H1 (r' & H2)].
    assert (Hr0 : nh F r0). { inversion Hm; subst; [assumption|]. eapply Hfst. eassumption. }
    destruct (Hb _ _ _ Hg Hw Hn Hr0) as (Hrun & Hwr0 & Hl0).
    destruct (IH m HF Hnc Hwr0 ltac:(lia) ltac:(lia)) as (Hrec & Hwr & Hl). split; [|split; [exact Hwr|lia]].
    cbn [loop_until].
    eapply run_bind; [unfold pnot; eapply run_bind; [eapply run_peek1; eassumption|reflexivity]|]. cbn [negb].
    eapply run_bind; [exact Hrun|]. eapply run_bind; [exact Hrec|]. reflexivity.
Qed.

Lemma do_loop_comp {A} n m (body : P A) g F (fin : P bool) ts l r : comp 1 n body g F ->
  (forall ts a r, g ts a r -> nh F ts) -> (forall ts a r, g ts a r -> wf ts -> fin ts = POk false ts) ->
  many g ts l r -> l <> [] -> nh F r -> (wf r -> fin r = POk true r) ->
  wf ts -> (List.length ts <= n)%nat -> (List.length ts <= m)%nat ->
  do_loop m body fin ts = POk l r /\ wf r /\ (List.length r + 1 <= List.length ts)%nat.
Proof.
  intros Hb Hfst Hgo Hm. revert m. induction Hm as [ts|ts a r0 l r1 Hg Hm IH]; intros m Hne HF Hfin Hw Hn Hlm; [congruence|].
  destruct m as [|m]; [pose proof (wf_len _ Hw); lia|].
  assert (HF0 : nh F r0). { inversion Hm; subst; [assumption|]. eapply Hfst. eassumption. }
  destruct (Hb _ _ _ Hg Hw Hn HF0) as (Hrun & Hwr0 & Hl0).
  assert (Hc : (l = [] /\ r0 = r1) \/ (l <> [] /\ fin r0 = POk false r0)).
  { inversion Hm; subst; [left; split; reflexivity|]. right. split; [discriminate|]. eapply Hgo; eassumption. }
  cbn [do_loop]. destruct Hc as [[-> ->]|[Hl Hf]].
  - split; [|split; [exact Hwr0|lia]]. eapply run_bind; [exact Hrun|]. eapply run_bind; [apply Hfin; assumption|]. reflexivity.
  - destruct (IH m Hl HF Hfin Hwr0 ltac:(lia) ltac:(lia)) as (Hrec & Hwr & Hll). split; [|split; [exact Hwr|lia]].
    eapply run_bind; [exact Hrun|]. eapply run_bind; [exact Hf|]. cbn iota. eapply run_bind; [exact Hrec|]. reflexivity.
Qed.

Lemma do_loop_close_comp {A} n m (body : P A) g F c ts l r1 r : comp 1 n body g F ->
  (forall ts a r, g ts a r -> nh F ts /\ nh [(KPunct, B c)] ts) -> hd_in F (mkTok KPunct (B c) 0 0) = false ->
  many g ts l r1 -> l <> [] -> pun c r1 r -> wf ts -> (List.length ts <= n)%nat -> (List.length ts <= m)%nat ->
  do_loop m body (skip1 KPunct c) ts = POk l r /\ wf r /\ (List.length r + 1 <= List.length ts)%nat.
Proof.
  intros Hb Hfst HcF Hm. revert m. induction Hm as [ts|ts a r0 l r1 Hg Hm IH]; intros m Hne Hc Hw Hn Hlm; [congruence|].
  destruct m as [|m]; [pose proof (wf_len _ Hw); lia|].
  assert (HF0 : nh F r0). { inversion Hm; subst; [eapply nh_term; eassumption|]. eapply Hfst. eassumption. }
  destruct (Hb _ _ _ Hg Hw Hn HF0) as (Hrun & Hwr0 & Hl0).
  assert (Hx : (l = [] /\ r0 = r1) \/ (l <> [] /\ nh [(KPunct, B c)] r0)).
  { inversion Hm; subst; [left; split; reflexivity|]. right. split; [discriminate|]. eapply Hfst; eassumption. }
  cbn [do_loop]. destruct Hx as [[-> ->]|[Hl Hf]].
  - destruct (term_wf _ _ _ _ Hc eq_refl Hwr0) as [Hr Hll]. split; [|split; [exact Hr|lia]].
    eapply run_bind; [exact Hrun|]. eapply run_bind; [apply run_skip1; [eassumption|reflexivity|assumption]|]. reflexivity.
  - destruct (IH m Hl Hc Hwr0 ltac:(lia) ltac:(lia)) as (Hrec & Hwr & Hll). split; [|split; [exact Hwr|lia]].
    eapply run_bind; [exact Hrun|]. eapply run_bind; [eapply run_skip1_no; [assumption|exact Hf|left; reflexivity]|]. cbn iota.
    eapply run_bind; [exact Hrec|]. reflexivity.
Qed.

Lemma do_loop_sep_comp {A} n m (body : P A) g F c ts l r : comp 1 n body g F -> hd_in F (mkTok KPunct (B c) 0 0) = false ->
  sep1 c g ts l r -> nh F r -> nh [(KPunct, B c)] r -> wf ts -> (List.length ts <= n)%nat -> (List.length ts <= m)%nat ->
  do_loop m body (pnot (skip1 KPunct c)) ts = POk l r /\ wf r /\ (List.length r + 1 <= List.length ts)%nat.
Proof.
  intros Hb HcF Hs. revert m. induction Hs as [ts a r Hg|ts a r1 r2 l r Hg Hp Hs IH]; intros m HF Hnc Hw Hn Hlm;
    (destruct m as [|m]; [pose proof (wf_len _ Hw); lia|]).
  - destruct (Hb _ _ _ Hg Hw Hn HF) as (Hrun & Hwr0 & Hl0). split; [|split; [exact Hwr0|lia]]. cbn [do_loop].
    eapply run_bind; [exact Hrun|]. unfold pnot. eapply run_bind; [eapply run_bind; [eapply run_skip1_no; [assumption|exact Hnc|left; reflexivity]|reflexivity]|].
    reflexivity.
  - assert (HF1 : nh F r1) by (eapply nh_term; eassumption).
    destruct (Hb _ _ _ Hg Hw Hn HF1) as (Hrun & Hwr1 & Hl1). destruct (term_wf _ _ _ _ Hp eq_refl Hwr1) as [Hwr2 Hl2].
    destruct (IH m HF Hnc Hwr2 ltac:(lia) ltac:(lia)) as (Hrec & Hwr & Hll). split; [|split; [exact Hwr|lia]]. cbn [do_loop].
    eapply run_bind; [exact Hrun|]. unfold pnot at 1. eapply run_bind; [eapply run_bind; [apply run_skip1; [eassumption|reflexivity|assumption]|reflexivity]|].
    cbn [negb]. eapply run_bind; [exact Hrec|]. reflexivity.
Qed.

(** ** Where the constructs start. *)
Definition onlyP (F : list (kind * bytes)) : Prop := Forall (fun kl => fst kl = KPunct) F.
Lemma onlyP_name F : onlyP F -> Forall (fun kl => fst kl <> KName) F.
Proof. apply Forall_impl. intros a ->. discriminate. Qed.
Lemma onlyP_string F : onlyP F -> Forall (fun kl => fst kl <> KString) F.
Proof. apply Forall_impl. intros a ->. discriminate. Qed.
Definition free (F : list (kind * bytes)) (s : string) : Prop := hd_in F (mkTok KPunct (B s) 0 0) = false.

Section Complete.
Variable fok : bytes -> bool.
Variable lv : level.

Lemma nh_pun F s ts r : pun s ts r -> free F s -> nh F ts. Proof. apply nh_term. Qed.
Lemma nh_nm F n ts r : name n ts r -> onlyP F -> nh F ts. Proof. intros H Hf. eapply nh_name; [exact H|apply onlyP_name; exact Hf]. Qed.
Lemma nh_str F n ts r : terminal KString n ts r -> onlyP F -> nh F ts.
Proof. intros H Hf. eapply nh_string; [exact H|apply onlyP_string; exact Hf]. Qed.
Lemma nh_type F ts t r : g_type lv ts t r -> onlyP F -> free F "[" -> nh F ts.
Proof. intros H Hf H1. inversion H; subst; try (eapply nh_nm; eassumption); eapply nh_pun; eassumption. Qed.
Lemma nh_named F ts t r : g_named lv ts t r -> onlyP F -> nh F ts.
Proof. intros H Hf. inversion H; subst; eapply nh_nm; eassumption. Qed.
Lemma nh_default F ts v r : g_default fok lv ts v r -> free F "=" -> nh F r -> nh F ts.
Proof. intros H Hf Hr. inversion H; subst; [assumption|]. eapply nh_pun; eassumption. Qed.
Lemma nh_args F c ts v r : g_args fok lv c ts v r -> free F "(" -> nh F r -> nh F ts.
Proof. intros H Hf Hr. inversion H; subst; [assumption|]. eapply nh_pun; eassumption. Qed.
Lemma nh_dirs F c loc ts v r : g_dirs fok lv c loc ts v r -> free F "@" -> nh F r -> nh F ts.
Proof.
  intros H Hf Hr. inversion H; subst; [assumption|]. match goal with H : g_dir _ _ _ _ _ _ _ |- _ => inversion H; subst end.
  eapply nh_pun; eassumption.
Qed.
Lemma nh_selset F ts v r : g_selset fok lv ts v r -> free F "{" -> nh F ts.
Proof. intros H Hf. inversion H; subst. eapply nh_pun; eassumption. Qed.
Lemma nh_opt_selset F ts v r : g_opt_selset fok lv ts v r -> free F "{" -> nh F r -> nh F ts.
Proof. intros H Hf Hr. inversion H; subst; [assumption|]. eapply nh_selset; eassumption. Qed.
Lemma nh_sel F ts v r : g_sel fok lv ts v r -> onlyP F -> free F "..." -> nh F ts.
Proof.
  intros H Hf Hd. inversion H; subst; [|eapply nh_pun; eassumption..].
  match goal with H : g_alias _ _ _ |- _ => inversion H; subst end; eapply nh_nm; eassumption.
Qed.
Lemma nh_vardefs F ts v r : g_vardefs fok lv ts v r -> free F "(" -> nh F r -> nh F ts.
Proof. intros H Hf Hr. inversion H; subst; [assumption|]. eapply nh_pun; eassumption. Qed.
Lemma nh_argdefs F ts v r : g_argdefs fok lv ts v r -> free F "(" -> nh F r -> nh F ts.
Proof. intros H Hf Hr. inversion H; subst; [assumption|]. eapply nh_pun; eassumption. Qed.
Lemma nh_desc F ts v r : g_desc ts v r -> onlyP F -> nh F r -> nh F ts.
Proof. intros H Hf Hr. inversion H; subst; [assumption|]. eapply nh_str; eassumption. Qed.
Lemma nh_ivdef F loc ts v r : g_ivdef fok lv loc ts v r -> onlyP F -> nh F ts.
Proof. intros H Hf. inversion H; subst. eapply nh_desc; [eassumption|assumption|]. eapply nh_nm; eassumption. Qed.
Lemma nh_fielddef F ts v r : g_fielddef fok lv ts v r -> onlyP F -> nh F ts.
Proof. intros H Hf. inversion H; subst. eapply nh_desc; [eassumption|assumption|]. eapply nh_nm; eassumption. Qed.
Lemma nh_enumval F ts v r : g_enumval fok lv ts v r -> onlyP F -> nh F ts.
Proof. intros H Hf. inversion H; subst. eapply nh_desc; [eassumption|assumption|]. eapply nh_nm; eassumption. Qed.
Lemma nh_block {A} F (g : G A) ts v r : g_block g ts v r -> free F "{" -> nh F r -> nh F ts.
Proof. intros H Hf Hr. inversion H; subst; [assumption|]. eapply nh_pun; eassumption. Qed.
Lemma nh_members F ts v r : g_members lv ts v r -> free F "=" -> nh F r -> nh F ts.
Proof. intros H Hf Hr. inversion H; subst; [assumption|]. eapply nh_pun; eassumption. Qed.
Lemma nh_implements F ts v r : g_implements lv ts v r -> hd_in F (mkTok KName (B "implements") 0 0) = false -> nh F r -> nh F ts.
Proof. intros H Hf Hr. inversion H; subst; [assumption|]. eapply nh_term; eassumption. Qed.
Lemma nh_opkind F ts v r : g_opkind ts v r -> onlyP F -> nh F ts.
Proof. intros H Hf. inversion H; subst; eapply nh_nm; eassumption. Qed.
Lemma nh_optype F ts v r : g_optype lv ts v r -> onlyP F -> nh F ts.
Proof. intros H Hf. inversion H; subst. eapply nh_opkind; eassumption. Qed.
Lemma nh_value F c ts v r : g_value fok lv c ts v r -> onlyP F -> free F "$" -> free F "[" -> free F "{" -> nh F ts.
Proof.
  intros H Hf H1 H2 H3.
  assert (Hother : forall k lit, terminal k lit ts r -> k <> KPunct -> nh F ts).
  { intros k lit Ht Hk. inversion Ht; subst. cbn. unfold hd_in. destruct (existsb _ F) eqn:He; [|reflexivity].
    apply existsb_exists in He. destruct He as ([k' l'] & Hin & Ht'). apply is1_iff in Ht'. cbn in Ht'.
    unfold onlyP in Hf. rewrite Forall_forall in Hf. specialize (Hf _ Hin). cbn in Hf. destruct Ht'. congruence. }
  inversion H; subst; try (eapply nh_pun; eassumption); eapply Hother; try eassumption; discriminate.
Qed.
End Complete.

(** Solves [nh F ts] from the derivation that starts at [ts]. *)
Ltac side := first [reflexivity | (repeat (constructor; [reflexivity|]); constructor)].
Ltac fol :=
  match goal with
  | H : nh ?F ?r |- nh ?F ?r => exact H
  | |- nh [] ?r => destruct r; exact eq_refl || exact I
  | H : terminal KPunct (B _) ?ts _ |- nh _ ?ts => eapply nh_pun; [exact H|reflexivity]
  | H : terminal KName (B _) ?ts _ |- nh _ ?ts => eapply nh_term; [exact H|reflexivity]
  | H : terminal KName _ ?ts _ |- nh _ ?ts => eapply nh_nm; [exact H|side]
  | H : g_type _ ?ts _ _ |- nh _ ?ts => eapply nh_type; [exact H|side|reflexivity]
  | H : g_named _ ?ts _ _ |- nh _ ?ts => eapply nh_named; [exact H|side]
  | H : g_value _ _ _ ?ts _ _ |- nh _ ?ts => eapply nh_value; [exact H|side|reflexivity..]
  | H : g_default _ _ ?ts _ _ |- nh _ ?ts => eapply nh_default; [exact H|reflexivity|fol]
  | H : g_args _ _ _ ?ts _ _ |- nh _ ?ts => eapply nh_args; [exact H|reflexivity|fol]
  | H : g_dirs _ _ _ _ ?ts _ _ |- nh _ ?ts => eapply nh_dirs; [exact H|reflexivity|fol]
  | H : g_selset _ _ ?ts _ _ |- nh _ ?ts => eapply nh_selset; [exact H|reflexivity]
  | H : g_opt_selset _ _ ?ts _ _ |- nh _ ?ts => eapply nh_opt_selset; [exact H|reflexivity|fol]
  | H : g_sel _ _ ?ts _ _ |- nh _ ?ts => eapply nh_sel; [exact H|side|reflexivity]
  | H : g_vardefs _ _ ?ts _ _ |- nh _ ?ts => eapply nh_vardefs; [exact H|reflexivity|fol]
  | H : g_argdefs _ _ ?ts _ _ |- nh _ ?ts => eapply nh_argdefs; [exact H|reflexivity|fol]
  | H : g_block _ ?ts _ _ |- nh _ ?ts => eapply nh_block; [exact H|reflexivity|fol]
  | H : g_members _ ?ts _ _ |- nh _ ?ts => eapply nh_members; [exact H|reflexivity|fol]
  | H : g_implements _ ?ts _ _ |- nh _ ?ts => eapply nh_implements; [exact H|reflexivity|fol]
  | H : g_ivdef _ _ _ ?ts _ _ |- nh _ ?ts => eapply nh_ivdef; [exact H|side]
  | H : g_fielddef _ _ ?ts _ _ |- nh _ ?ts => eapply nh_fielddef; [exact H|side]
  | H : g_enumval _ _ ?ts _ _ |- nh _ ?ts => eapply nh_enumval; [exact H|side]
  | H : g_optype _ ?ts _ _ |- nh _ ?ts => eapply nh_optype; [exact H|side]
  | H : g_desc ?ts _ _ |- nh _ ?ts => eapply nh_desc; [exact H|side|fol]
  | H : nh _ ?r |- nh _ ?r => eapply nh_sub; [exact H|]; unfold pns; cbn [map In]; intros ? ?; intuition auto; fail
  end.
