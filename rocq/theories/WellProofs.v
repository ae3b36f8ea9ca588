(** * WellProofs: what the grammar derives from tokens with good names is well-formed. *)
From Coq Require Import NArith Nnat.
From Verif Require Import Base Utf8 Lexer AST Parser Grammar GrammarProps WellFormed.

Section Wf.
Variable fok : bytes -> bool.
Variable lv : level.
Variable ident : bytes -> Prop.
Definition good_tok (t : token) : Prop := tkind t = KName -> ident (tlit t).
Notation good := (Forall good_tok).
Notation fl := (fun l => fok l = true).
(** [g] derives, from good tokens, something that satisfies [C], and leaves good tokens *)
Definition gives {A} (g : G A) (C : A -> Prop) : Prop := forall ts a r, good ts -> g ts a r -> C a /\ good r.
Lemma terminal_good k n ts r : terminal k n ts r -> good ts -> good r.
Proof. intros H F. inversion H; subst. inversion F; assumption. Qed.
Lemma name_good n ts r : name n ts r -> good ts -> ident n /\ good r.
Proof. intros H F. inversion H; subst. inversion F as [|? ? N F']; subst. split; [apply N; reflexivity|exact F']. Qed.
Lemma maybe_good s ts r : maybe s ts r -> good ts -> good r.
Proof. intros [->|H] F; [exact F|eapply terminal_good; eassumption]. Qed.
Lemma many_gives {A} (g : G A) C : gives g C -> gives (many g) (Forall C).
Proof.
  intros Hg ts a r F H. induction H as [ts|ts a r1 l r H Hm IH]; [auto|]. destruct (Hg _ _ _ F H) as [Ha F1]. destruct (IH F1) as [Hl F2]. auto.
Qed.
Lemma many1_gives {A} (g : G A) C : gives g C -> gives (many1 g) (fun l => Forall C l /\ l <> []).
Proof. intros Hg ts a r F [H N]. destruct (many_gives g C Hg _ _ _ F H). auto. Qed.
Lemma sep1_gives {A} s (g : G A) C : gives g C -> gives (sep1 s g) (fun l => Forall C l /\ l <> []).
Proof.
  intros Hg ts a r F H. induction H as [ts a r H|ts a r1 r2 l r H Hs Hm IH]; destruct (Hg _ _ _ F H) as [Ha F1].
  - split; [split; [auto|discriminate]|exact F1].
  - destruct (IH (terminal_good _ _ _ _ Hs F1)) as [[Hl _] F2]. split; [split; [auto|discriminate]|exact F2].
Qed.
Lemma block_gives {A} (g : G A) C : gives g C -> gives (g_block g) (Forall C).
Proof.
  intros Hg ts a r F H. inversion H; subst; [auto|].
  match goal with K : pun "{" _ _ |- _ => pose proof (terminal_good _ _ _ _ K F) as F1 end.
  match goal with K : many1 _ _ _ _ |- _ => destruct (many1_gives g C Hg _ _ _ F1 K) as [[Hl _] F2] end.
  split; [exact Hl|]. eapply terminal_good; eassumption.
Qed.
(** step over the premises of a rule *)
Ltac gnames := repeat match goal with
  | F : good ?ts, H : terminal KName (B _) ?ts ?r |- _ => lazymatch goal with _ : good r |- _ => fail | _ => idtac end; pose proof (terminal_good _ _ _ _ H F)
  | F : good ?ts, H : terminal KName ?n ?ts ?r |- _ => lazymatch goal with _ : good r |- _ => fail | _ => idtac end; destruct (name_good _ _ _ H F)
  | F : good ?ts, H : terminal _ _ ?ts ?r |- _ => lazymatch goal with _ : good r |- _ => fail | _ => idtac end; pose proof (terminal_good _ _ _ _ H F)
  | F : good ?ts, H : maybe _ ?ts ?r |- _ => lazymatch goal with _ : good r |- _ => fail | _ => idtac end; pose proof (maybe_good _ _ _ H F)
  end.
Ltac use L := gnames; match goal with
  | F : good ?ts, H : _ ?ts _ ?r |- _ => let X := fresh "X" in let Y := fresh "Y" in destruct (L _ _ _ F H) as [X Y]; clear H; cbv beta in X
  end; gnames.
Ltac inv H := inversion H; clear H; subst.

Lemma type_gives : gives (g_type lv) (wf_type ident).
Proof.
  intros ts a r F H. induction H; gnames; cbn [wf_type]; auto.
  - destruct (IHg_type ltac:(assumption)) as [Hq Fq]. gnames. auto.
  - destruct (IHg_type ltac:(assumption)) as [Hq Fq]. gnames. auto.
  - destruct (IHg_type ltac:(assumption)) as [Hq Fq]. auto.
Qed.
Lemma named_gives : gives (g_named lv) (wf_named ident).
Proof. intros ts a r F H. inv H; gnames; split; try assumption; eexists _, _; eauto. Qed.
Lemma member_gives : gives (g_member lv) (wf_type ident).
Proof. intros ts a r F H. inv H; [gnames; auto|]. eapply type_gives; eassumption. Qed.
Lemma value_gives c : gives (g_value fok lv c) (wf_value ident fl).
Proof.
  intros ts v. revert ts. induction v using value_nest; intros ts r F Hg; inv Hg; gnames; try (split; [constructor; auto; fail|assumption]).
  - split; [|assumption]. constructor. split; [assumption|]. cbn [In]. intuition congruence.
  - match goal with Hm : many _ _ _ _ |- _ => assert (Forall (wf_value ident fl) l /\ good r2) as [Hl F2]; [|gnames; split; [constructor; exact Hl|assumption]];
      match goal with K : good ?r1 |- _ => match type of Hm with many _ r1 _ _ => revert K end end; match goal with K : Forall _ l |- _ => revert K end; clear - Hm end.
    match goal with Hm : many _ _ _ _ |- _ => induction Hm as [ts|ts a r1 l r2 H Hm IH]; intros IHl F; [auto|] end. inv IHl.
    match goal with K : forall ts r, _ -> _ -> _ |- _ => destruct (K _ _ F H) as [Ha F1] end. destruct (IH ltac:(assumption) F1). auto.
  - match goal with Hm : many _ _ _ _ |- _ => assert (Forall (fun f => ident (fst f) /\ wf_value ident fl (snd f)) fs /\ good r2) as [Hl F2]; [|gnames; split; [constructor; exact Hl|assumption]];
      match goal with K : good ?r1 |- _ => match type of Hm with many _ r1 _ _ => revert K end end; match goal with K : Forall _ fs |- _ => revert K end; clear - Hm end.
    match goal with Hm : many _ _ _ _ |- _ => induction Hm as [ts|ts a r1 l r2 H Hm IH]; intros IHl F; [auto|] end. inv IHl. inv H. gnames.
    match goal with K : forall ts r, _ -> _ -> _, J : g_value _ _ _ _ _ _ |- _ => cbn [snd] in K; destruct (K _ _ ltac:(eassumption) J) as [Ha F1] end. destruct (IH ltac:(assumption) F1). auto.
Qed.
Lemma default_gives : gives (g_default fok lv) (wf_default ident fl).
Proof. intros ts a r F H. inv H; [split; [discriminate|exact F]|]. use (value_gives true). split; [|assumption]. intros ? [= <-]. exact X. Qed.
Lemma arg_gives c : gives (g_arg fok lv c) (fun a => ident (arg_name a) /\ wf_value ident fl (arg_value a)).
Proof. intros ts a r F H. inv H. use (value_gives c). auto. Qed.
Lemma args_gives c : gives (g_args fok lv c) (wf_arguments ident fl).
Proof. intros ts a r F H. inv H; [split; [constructor|exact F]|]. use (many_gives _ _ (arg_gives c)). auto. Qed.
Lemma dirs_gives c l : gives (g_dirs fok lv c l) (wf_directives ident fl l).
Proof. apply many_gives. intros ts a r F H. inv H. use (args_gives c). auto. Qed.
Lemma cond_gives : gives (g_cond lv) (wf_named ident).
Proof. intros ts a r F H. inv H. use named_gives. auto. Qed.
Lemma alias_gives : gives g_alias (fun p => optional_ident ident (fst p) /\ ident (snd p)).
Proof. intros ts a r F H. inv H; gnames; cbn [fst snd]; unfold optional_ident; auto. Qed.
Lemma sels_gives ts l r : good ts -> many (g_sel fok lv) ts l r -> Forall (fun s => forall ts r, good ts -> g_sel fok lv ts s r -> wf_selection ident fl s /\ good r) l ->
  Forall (wf_selection ident fl) l /\ good r.
Proof.
  intros F H. revert F. induction H as [ts|ts a r1 l r H Hm IH]; intros F Hl; [auto|]. inv Hl.
  match goal with K : forall ts r, _ -> _ -> _ |- _ => destruct (K _ _ F H) as [Ha F1] end. destruct (IH F1 ltac:(assumption)). auto.
Qed.
Lemma selset_gives_rec ts l r : good ts -> g_selset fok lv ts l r -> Forall (fun s => forall ts r, good ts -> g_sel fok lv ts s r -> wf_selection ident fl s /\ good r) l ->
  Forall (wf_selection ident fl) l /\ l <> [] /\ good r.
Proof. intros F H Hl. inv H. gnames. match goal with K : many _ _ _ _ |- _ => destruct (sels_gives _ _ _ ltac:(eassumption) K Hl) end. gnames. auto. Qed.
Lemma sel_gives : gives (g_sel fok lv) (wf_selection ident fl).
Proof.
  intros ts s. revert ts. induction s using selection_nest; intros ts r F Hg; inv Hg.
  - use alias_gives. use (args_gives false). use (dirs_gives false LField). cbn [fst snd] in *.
    match goal with K : g_opt_selset _ _ _ _ _ |- _ => inv K end.
    + split; [|assumption]. destruct X. constructor; auto.
    + match goal with K : g_selset _ _ _ _ _, IH : Forall _ ss |- _ => destruct (selset_gives_rec _ _ _ ltac:(eassumption) K IH) as (? & ? & ?) end. split; [|assumption]. destruct X. constructor; auto.
  - use (dirs_gives false LFragmentSpread). split; [|assumption]. constructor; [split; assumption|exact X].
  - gnames. match goal with K : g_opt_cond _ _ _ _ |- _ => inv K end.
    + use (dirs_gives false LInlineFragment). match goal with K : g_selset _ _ _ _ _, IH : Forall _ ss |- _ => destruct (selset_gives_rec _ _ _ ltac:(eassumption) K IH) as (? & ? & ?) end.
      split; [|assumption]. constructor; auto. discriminate.
    + use cond_gives. use (dirs_gives false LInlineFragment). match goal with K : g_selset _ _ _ _ _, IH : Forall _ ss |- _ => destruct (selset_gives_rec _ _ _ ltac:(eassumption) K IH) as (? & ? & ?) end.
      split; [|assumption]. constructor; auto. intros ? [= <-]. exact X.
Qed.
Lemma selset_gives : gives (g_selset fok lv) (fun l => Forall (wf_selection ident fl) l /\ l <> []).
Proof.
  intros ts l r F H. destruct (selset_gives_rec ts l r F H) as (? & ? & ?); [|auto]. apply Forall_forall. intros s _ ts' r' F' H'. eapply sel_gives; eassumption.
Qed.
Lemma vardef_gives : gives (g_vardef fok lv) (wf_variable ident fl).
Proof. intros ts a r F H. inv H. use type_gives. use default_gives. repeat split; auto. Qed.
Lemma vardefs_gives : gives (g_vardefs fok lv) (Forall (wf_variable ident fl)).
Proof. intros ts a r F H. inv H; [auto|]. use (many1_gives _ _ vardef_gives). destruct X. auto. Qed.
Lemma opkind_gives : gives g_opkind (fun _ => True).
Proof. intros ts a r F H. inv H; gnames; auto. Qed.
Lemma opt_name_gives : gives g_opt_name (optional_ident ident).
Proof. intros ts a r F H. inv H; gnames; unfold optional_ident; auto. Qed.
Lemma op_gives : gives (g_op fok lv) (wf_operation ident fl).
Proof.
  intros ts a r F H. inv H.
  - use selset_gives. destruct X. split; [|assumption]. repeat split; cbn; auto; [left; reflexivity|constructor].
  - use opkind_gives. use opt_name_gives. use vardefs_gives. use (dirs_gives false (operation_location k)). use selset_gives.
    split; [|assumption]. unfold wf_operation. cbn [o_name o_vars o_dirs o_sels o_kind]. destruct X3. change (place_of k) with (operation_location k). auto.
Qed.
Lemma frag_gives : gives (g_frag fok lv) (wf_fragment ident fl).
Proof. intros ts a r F H. inv H. use cond_gives. use (dirs_gives false LFragmentDefinition). use selset_gives. destruct X1. split; [|assumption]. repeat split; auto. Qed.
Lemma desc_gives : gives g_desc (fun _ => True).
Proof. intros ts a r F H. inv H; gnames; auto. Qed.
Lemma ivdef_gives l : gives (g_ivdef fok lv l) (wf_input ident fl l).
Proof. intros ts a r F H. inv H. use desc_gives. use type_gives. use default_gives. use (dirs_gives true l). split; [|assumption]. repeat split; auto. Qed.
Lemma argdefs_gives : gives (g_argdefs fok lv) (Forall (wf_input ident fl LArgumentDefinition)).
Proof. intros ts a r F H. inv H; [auto|]. use (many1_gives _ _ (ivdef_gives LArgumentDefinition)). destruct X. auto. Qed.
Lemma fielddef_gives : gives (g_fielddef fok lv) (wf_field ident fl).
Proof. intros ts a r F H. inv H. use desc_gives. use argdefs_gives. use type_gives. use (dirs_gives true LFieldDefinition). split; [|assumption]. repeat split; auto. Qed.
Lemma enumval_gives : gives (g_enumval fok lv) (wf_enum ident fl).
Proof.
  intros ts a r F H. inv H. use desc_gives. use (dirs_gives true LEnumValue). split; [|assumption]. split; [split; [assumption|]|assumption].
  cbn [ev_name In]. intuition congruence.
Qed.
Lemma implements_gives : gives (g_implements lv) (Forall (wf_type ident)).
Proof. intros ts a r F H. inv H; [auto|]. use (sep1_gives "&" _ _ member_gives). destruct X. auto. Qed.
Lemma members_gives : gives (g_members lv) (Forall (wf_type ident)).
Proof. intros ts a r F H. inv H; [auto|]. use (sep1_gives "|" _ _ member_gives). destruct X. auto. Qed.
Lemma tydef_gives d : gives (g_tydef fok lv d) (fun t => wf_typedef ident fl t /\ t_desc t = d).
Proof.
  intros ts a r F H. inv H.
  - use (dirs_gives true LScalar). split; [|assumption]. split; [|reflexivity]. unfold wf_typedef; cbn. repeat split; auto; congruence.
  - use implements_gives. use (dirs_gives true LObject). use (block_gives _ _ fielddef_gives). split; [|assumption]. split; [|reflexivity]. unfold wf_typedef; cbn. repeat split; auto; congruence.
  - use (dirs_gives true LInterface). use (block_gives _ _ fielddef_gives). split; [|assumption]. split; [|reflexivity]. unfold wf_typedef; cbn. repeat split; auto; congruence.
  - use (dirs_gives true LUnion). use members_gives. split; [|assumption]. split; [|reflexivity]. unfold wf_typedef; cbn. repeat split; auto; congruence.
  - use (dirs_gives true LEnum). use (block_gives _ _ enumval_gives). split; [|assumption]. split; [|reflexivity]. unfold wf_typedef; cbn. repeat split; auto; congruence.
  - use (dirs_gives true LInputObject). use (block_gives _ _ (ivdef_gives LInputFieldDefinition)). split; [|assumption]. split; [|reflexivity]. unfold wf_typedef; cbn. repeat split; auto; congruence.
Qed.
Lemma optype_gives : gives (g_optype lv) (fun o => wf_named ident (ot_type o)).
Proof. intros ts a r F H. inv H. use opkind_gives. use named_gives. auto. Qed.
Lemma schema_gives : gives (g_schema fok lv) (fun s => wf_schema ident fl s /\ s_ops s <> []).
Proof. intros ts a r F H. inv H. use (dirs_gives true LSchema). use (many1_gives _ _ optype_gives). destruct X0. split; [|assumption]. repeat split; auto. Qed.
Lemma schemaext_gives : gives (g_schemaext fok lv) (fun s => wf_schema ident fl s /\ (s_dirs s <> [] \/ s_ops s <> [])).
Proof. intros ts a r F H. inv H. use (dirs_gives true LSchema). use (block_gives _ _ optype_gives). split; [|assumption]. repeat split; auto. Qed.
Lemma locations_bound ns l : ns <> [] -> Forall (fun n => In n location_names) ns -> locations_denote ns l -> (0 < l < 2 ^ 19)%N.
Proof.
  intros Hne Hin Hd. split.
  - destruct ns as [|n ns]; [congruence|]. inv Hin. destruct (In_nth_error _ _ H1) as (i & Hi).
    assert (N.testbit l (N.of_nat i) = true) as Hb by (apply Hd; exists n; split; [left; reflexivity|exact Hi]).
    destruct l; [rewrite N.bits_0 in Hb; discriminate|lia].
  - destruct (N.eq_dec l 0) as [->|Hz]; [reflexivity|]. apply N.log2_lt_pow2; [lia|].
    pose proof (N.bit_log2 l Hz) as Hb. rewrite <- (N2Nat.id (N.log2 l)) in Hb. apply Hd in Hb. destruct Hb as (n & _ & Hn).
    assert (N.to_nat (N.log2 l) < List.length location_names)%nat as Hl by (apply nth_error_Some; congruence). cbn [List.length map location_names] in Hl. lia.
Qed.
Lemma dirloc_gives : gives (g_dirloc lv) (fun n => In n location_names).
Proof. intros ts a r F H. inv H. gnames. auto. Qed.
Lemma dirdef_gives d : gives (g_dirdef fok lv d) (wf_dirdef ident fl).
Proof.
  intros ts a r F H. inv H. use argdefs_gives. use (sep1_gives "|" _ _ dirloc_gives). destruct X0 as [Hin Hne]. split; [|assumption].
  split; [assumption|]. split; [assumption|]. cbn [dd_locs]. eapply locations_bound; eassumption.
Qed.
Lemma body_gives : gives (g_body fok lv) (wf_body ident fl).
Proof.
  intros ts a r F H. inv H; cbn [wf_body].
  - apply op_gives with ts; assumption.
  - apply frag_gives with ts; assumption.
  - apply schema_gives with ts; assumption.
  - gnames. eapply schema_gives; eassumption.
  - use desc_gives. use (tydef_gives d). destruct X0. auto.
  - use desc_gives. use (dirdef_gives d). auto.
  - use schemaext_gives. auto.
  - use (tydef_gives []). auto.
Qed.
Lemma defs_gives ts ds r : good ts -> g_defs fok lv ts ds r -> ds <> [] /\ Forall (fun d => wf_body ident fl (def_body d)) ds.
Proof.
  intros F H. induction H as [ts d r H _|ts d r1 l r H _ _ IH]; (split; [discriminate|]); inv H; match goal with K : g_body _ _ _ _ _ |- _ => destruct (body_gives _ _ _ F K) as [Hb F1] end.
  - constructor; [exact Hb|constructor].
  - constructor; [exact Hb|]. apply IH, F1.
Qed.
End Wf.
