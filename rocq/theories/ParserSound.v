(** * ParserSound: what the parser accepts is derivable, and it never runs out of fuel or of tokens. *)
From Verif Require Import Base Utf8 Lexer AST Parser Grammar ParserWp.
Local Open Scope p_scope.

Ltac lena := lia.
(** one step of a wp goal *)
Ltac wstep :=
  match goal with
  | |- wp (pbind _ _) _ _ _ => apply wp_bind
  | |- wp (pret _) _ _ _ => apply wp_ret
  | |- wp (perr _) _ _ _ => apply wp_perr; [assumption|]
  | |- wp (pfail _) _ _ _ => apply wp_fail
  | |- wp (skip1 _ _) _ _ _ => apply wp_skip1; [reflexivity|assumption| |]; [intros ? ? ? ?|intros ?]
  | |- wp (peek1 _ _) _ _ _ => apply wp_peek1; [assumption| |]; [intros ? ?|intros ?]
  | |- wp (must1 _ _) _ _ _ => apply wp_must1; [reflexivity|assumption| |]; [intros ? ? ? ? ?|]
  | |- wp (must0 _) _ _ _ => apply wp_must0; [reflexivity|assumption| |]; [intros ? ? ? ? ?|]
  | |- wp (need _ _) _ _ _ => apply wp_need; [reflexivity|assumption| |]; [intros ? ? ? ?|]
  | |- wp (consume0 _) _ _ _ => apply wp_consume0; [reflexivity|assumption| |]; [intros ? ? ? ? ?|intros ?]
  | HE : forall r, wf r -> (List.length r <= List.length _)%nat -> ?E r |- ?E _ => apply HE; [assumption|lena]
  end.
(** apply a [spec] lemma to the current call *)
Ltac wspec H := eapply H; [assumption|lena| |]; [intros ? ? ? ? ?; cbv beta in *|intros ? ? ?; try wstep].
Ltac wdone HQ := eapply HQ; [|assumption|lena].

Section Sound.
Variable fok : bytes -> bool.

(** parseType, with the position at which it fails. *)
Lemma parse_type_wp n : forall ts (Q : ty -> list token -> Prop) (E : list token -> Prop), wf ts -> (List.length ts <= n)%nat ->
  (forall a r, g_type Any ts a r -> wf r -> (List.length r + 1 <= List.length ts)%nat -> Q a r) ->
  (forall r, wf r -> (List.length r <= List.length ts)%nat ->
     (r = ts /\ (forall n r', ~ name n r r') /\ forall r', ~ pun "[" r r') \/
     (exists r1 t, pun "[" ts r1 /\ g_type Any r1 t r /\ forall r', ~ pun "]" r r') -> E r) -> wp (parse_type n) ts Q E.
Proof.
  induction n as [|n IH]; intros ts Q E Hw Hn HQ HE.
  { pose proof (wf_len _ Hw). lia. }
  cbn [parse_type]. wstep. wstep; cbn iota.
  - assert (Hi : wp (parse_type n) r (fun it r' => wp (must1 KPunct "]" ;;; nn <- skip1 KPunct "!" ;; pret (TList it nn)) r' Q E)
                   (fun r' => Q TListNil r')).
    { apply IH; [assumption|lia| |].
      - intros it r' Hg Hr' Hl. apply wp_bind. apply wp_must1_not; [reflexivity|assumption| |].
        + intros t0 r1 Ht Hw1 Hl1. repeat wstep.
          * wdone HQ. eapply ty_list_nn; eassumption.
          * wdone HQ. eapply ty_list; eassumption.
        + intros Hno. apply HE; [assumption|lia|]. right. exists r, it. repeat split; assumption.
      - intros r' Hw' Hl [(-> & N1 & N2)|(r1 & t & H1' & H2' & N)].
        + wdone HQ. eapply ty_open; [reflexivity|eassumption|exact N1|exact N2].
        + wdone HQ. eapply ty_open_list; [reflexivity|eassumption|eassumption|eassumption|exact N]. }
    unfold wp at 1 in Hi. unfold wp. destruct (parse_type n r) as [it r'|e r'|cr]; exact Hi.
  - apply wp_bind. apply wp_must0_not; [reflexivity|assumption| |].
    + intros t0 r1 Ht Hw1 Hl1. repeat wstep.
      * wdone HQ. eapply ty_named_nn; eassumption.
      * wdone HQ. eapply ty_named; eassumption.
    + intros Hno. apply HE; [assumption|lia|]. left. repeat split; assumption.
Qed.

Lemma parse_type_spec n : spec 1 n (parse_type n) (g_type Any).
Proof. intros ts Q E Hw Hn HQ HE. apply parse_type_wp; auto. Qed.

Lemma named_only_wp t ts (Q : ty -> list token -> Prop) (E : list token -> Prop) : wf ts ->
  (forall n nn, t = TNamed n nn -> Q t ts) -> E ts -> wp (named_only t) ts Q E.
Proof. intros Hw HQ HE. destruct t; cbn [named_only]; [apply wp_ret; eapply HQ; reflexivity|wstep; exact HE..]. Qed.

Lemma g_type_named ts n nn r : g_type Any ts (TNamed n nn) r -> g_named Any ts (TNamed n nn) r.
Proof. intros H. inversion H; subst; [apply nm_plain; assumption|]. eapply nm_bang; [discriminate|eassumption|eassumption]. Qed.

Lemma parse_value_spec n const : spec 1 n (parse_value fok n) (g_value fok Any const).
Proof.
  induction n as [|n IH]; intros ts Q E Hw Hn HQ HE.
  { pose proof (wf_len _ Hw). lia. }
  cbn [parse_value]. wstep. wstep; cbn iota.
  { repeat wstep. wdone HQ. eapply v_var; [right; discriminate|eassumption|eassumption]. }
  wstep. wstep.
  { destruct (atoi (tlit t)) as [z|] eqn:Ha; repeat wstep.
    wdone HQ. destruct (atoi_sound _ _ Ha). eapply v_int; eassumption. }
  wstep. wstep.
  { destruct (fok (tlit t)) eqn:Ha; repeat wstep. wdone HQ. apply v_float; assumption. }
  wstep. wstep.
  { repeat wstep. wdone HQ. apply v_string; assumption. }
  wstep. apply wp_consume; [apply proper_isn; reflexivity|assumption| |].
  { intros t r -> Ht Hr. apply isn_term with (r := r) in Ht. destruct Ht as [Ht Hin]. apply wp_ret.
    eapply HQ; [|assumption|cbn [List.length]; lia]. destruct t as [k lit ln c]. inversion Ht; subst. cbn [tlit] in *.
    destruct Hin as [<-|[<-|[]]]; [apply v_true|apply v_false]; constructor. }
  intros tk rk Hts Hnot. wstep. wstep; cbn iota.
  { wstep. wdone HQ. apply v_null. assumption. }
  wstep. wstep.
  { wstep. wdone HQ. match goal with H : terminal KName (tlit t) ts r |- _ => rename H into Hn1 end.
    assert (Hinv : forall s, tlit t = s -> terminal KName s ts r) by (intros s <-; exact Hn1).
    apply v_enum; [exact Hn1| | |].
    - intros Hs. subst ts. pose proof (Hinv _ Hs) as Hi. inversion Hi; subst. discriminate Hnot.
    - intros Hs. subst ts. pose proof (Hinv _ Hs) as Hi. inversion Hi; subst. discriminate Hnot.
    - intros Hs. match goal with H : forall r, ~ terminal KName (B "null") ts r |- _ => exact (H r (Hinv _ Hs)) end. }
  wstep. wstep; cbn iota.
  { wstep. eapply loop_until_spec; [exact IH|assumption|lia|lia| |].
    - intros l r1 r2 ? ? ? ?. wstep. wdone HQ. eapply v_list; eassumption.
    - intros r2 ? ?. wstep. }
  wstep. wstep; cbn iota.
  { wstep. eapply (loop_until_spec n n _ (g_ofield fok Any const)); [|assumption|lia|lia| |].
    - intros ts' Q' E' Hw' Hn' HQ' HE'. unfold parse_object_field. repeat wstep. wspec IH. wstep. wdone HQ'.
      econstructor; eassumption.
    - intros l r1 r2 ? ? ? ?. wstep. wdone HQ. eapply v_object; eassumption.
    - intros r2 ? ?. wstep. }
  repeat wstep.
Qed.

Lemma parse_default_spec n : spec 0 n (parse_default fok n) (g_default fok Any).
Proof.
  intros ts Q E Hw Hn HQ HE. unfold parse_default. wstep. wstep; cbn iota.
  - wstep. wspec (parse_value_spec n true). wstep. wdone HQ. econstructor; eassumption.
  - wstep. wdone HQ. constructor.
Qed.

Lemma parse_argument_spec n const : spec 1 n (parse_argument fok n) (g_arg fok Any const).
Proof.
  intros ts Q E Hw Hn HQ HE. unfold parse_argument. repeat wstep. wspec (parse_value_spec n const). wstep. wdone HQ.
  econstructor; eassumption.
Qed.

Lemma parse_arguments_spec n const : spec 0 n (parse_arguments fok n) (g_args fok Any const).
Proof.
  intros ts Q E Hw Hn HQ HE. unfold parse_arguments. wstep. wstep; cbn iota.
  - eapply loop_until_spec; [apply (parse_argument_spec n const)|assumption|lia|lia| |].
    + intros l r1 r2 ? ? ? ?. wdone HQ. eapply args_some; try eassumption. right. discriminate.
    + intros. wstep.
  - wstep. wdone HQ. constructor.
Qed.

Lemma parse_directive_spec n const loc : spec 1 n (parse_directive fok n loc) (g_dir fok Any const loc).
Proof.
  intros ts Q E Hw Hn HQ HE. unfold parse_directive. repeat wstep. wspec (parse_arguments_spec n const). wstep. wdone HQ.
  econstructor; eassumption.
Qed.

Lemma parse_directives_spec n const loc : spec 0 n (parse_directives fok n loc) (g_dirs fok Any const loc).
Proof.
  intros ts Q E Hw Hn HQ HE. unfold parse_directives. eapply loop_while_spec; [apply (parse_directive_spec n const loc)|assumption|lia|lia| |].
  - intros l r H1 H2 H3. wdone HQ. exact H1.
  - exact HE.
Qed.

Lemma parse_type_condition_spec n : spec 1 n (parse_type_condition n) (g_cond Any).
Proof.
  intros ts Q E Hw Hn HQ HE. unfold parse_type_condition. wstep. wstep; [|wstep]. wstep. wspec (parse_type_spec n).
  apply named_only_wp; [assumption| |wstep]. intros nm nn ->. wdone HQ. econstructor; [eassumption|]. apply g_type_named. assumption.
Qed.

Lemma parse_spread_wp n ts r0 (Q : selection -> list token -> Prop) (E : list token -> Prop) : wf ts -> (List.length ts <= n)%nat ->
  pun "..." r0 ts -> (forall r, ~ kw "on" ts r) ->
  (forall a r, g_sel fok Any r0 a r -> wf r -> (List.length r + 1 <= List.length ts)%nat -> Q a r) ->
  (forall r, wf r -> (List.length r <= List.length ts)%nat -> E r) -> wp (parse_spread fok n) ts Q E.
Proof.
  intros Hw Hn Hd Hon HQ HE. unfold parse_spread. wstep. wstep; [|wstep]. wstep.
  wspec (parse_directives_spec n false LFragmentSpread). wstep. wdone HQ. eapply sel_spread; try eassumption.
  intros Hs. rewrite Hs in *. eapply Hon. eassumption.
Qed.

Definition selset_spec (n : nat) (selset : bool -> P (list selection)) : Prop :=
  spec 1 n (selset false) (g_selset fok Any) /\ spec 0 n (selset true) (g_opt_selset fok Any).

Lemma parse_inline_wp n selset ts r0 (Q : selection -> list token -> Prop) (E : list token -> Prop) : selset_spec n selset ->
  wf ts -> (List.length ts <= n)%nat -> pun "..." r0 ts ->
  (forall a r, g_sel fok Any r0 a r -> wf r -> (List.length r + 1 <= List.length ts)%nat -> Q a r) ->
  (forall r, wf r -> (List.length r <= List.length ts)%nat -> E r) -> wp (parse_inline fok n selset) ts Q E.
Proof.
  intros [Hs _] Hw Hn Hd HQ HE. unfold parse_inline. wstep. wstep; cbn iota; wstep.
  - wstep. wspec (parse_type_condition_spec n). wstep. wstep. wspec (parse_directives_spec n false LInlineFragment).
    wstep. wspec Hs. wstep. wdone HQ. eapply sel_inline; try eassumption. constructor. eassumption.
  - wstep. wstep. wspec (parse_directives_spec n false LInlineFragment).
    wstep. wspec Hs. wstep. wdone HQ. eapply sel_inline; try eassumption. constructor.
Qed.

Lemma parse_field_spec n selset : selset_spec n selset -> spec 1 n (parse_field fok n selset) (g_sel fok Any).
Proof.
  intros [_ Hs] ts Q E Hw Hn HQ HE. unfold parse_field. wstep. wstep; [|wstep]. wstep. wstep; cbn iota; wstep.
  - wstep. wstep; [|wstep]. wstep. wstep. wspec (parse_arguments_spec n false). wstep. wspec (parse_directives_spec n false LField).
    wstep. wspec Hs. wstep. wdone HQ. cbn [fst snd]. eapply sel_field; try eassumption. eapply al_some; eassumption.
  - wstep. wstep. wspec (parse_arguments_spec n false). wstep. wspec (parse_directives_spec n false LField).
    wstep. wspec Hs. wstep. wdone HQ. cbn [fst snd]. eapply sel_field; try eassumption. eapply al_none; eassumption.
Qed.

Lemma parse_selection_spec n selset : selset_spec n selset -> spec 1 n (parse_selection fok n selset) (g_sel fok Any).
Proof.
  intros Hs ts Q E Hw Hn HQ HE. unfold parse_selection. wstep. wstep; cbn iota.
  - wstep. apply wp_peek; [assumption|]. intros t r1 Hr.
    destruct (is0 KName t && negb (beqb (tlit t) (B "on"))) eqn:Ht.
    + eapply parse_spread_wp; [assumption|lia|eassumption| | |].
      * intros r2 Hk. subst r. inversion Hk; subst. cbn [is0 tkind tlit] in Ht. rewrite beqb_refl in Ht. discriminate.
      * intros a r2 Hss ? ?. wdone HQ. exact Hss.
      * intros; wstep.
    + eapply parse_inline_wp; [eassumption|assumption|lia|eassumption| |].
      * intros a r2 Hss ? ?. wdone HQ. exact Hss.
      * intros; wstep.
  - apply (parse_field_spec n selset Hs); assumption.
Qed.

Lemma parse_selset_spec n : selset_spec n (parse_selset fok n).
Proof.
  induction n as [|n IH].
  { split; intros ts Q E Hw Hn; pose proof (wf_len _ Hw); lia. }
  assert (Hl : forall ts (Q : list selection -> list token -> Prop) (E : list token -> Prop), wf ts -> (List.length ts <= n)%nat ->
    (forall l r1 r, many1 (g_sel fok Any) ts l r1 -> pun "}" r1 r -> wf r -> (List.length r + 1 <= List.length ts)%nat -> Q l r) ->
    (forall r, wf r -> (List.length r <= List.length ts)%nat -> E r) ->
    wp (ss <- do_loop n (parse_selection fok n (parse_selset fok n)) (at_close "}") ;; must1 KPunct "}" ;;; pret ss) ts Q E).
  { intros ts Q E Hw Hn HQ HE. wstep. eapply (do_loop_spec n n); [apply parse_selection_spec; exact IH| |assumption|lia|lia| |].
    - intros; apply wp_at_close; assumption.
    - intros l r ? ? ?. wstep. wstep; [|wstep]. wstep. eapply HQ; [eassumption|eassumption|assumption|lia].
    - exact HE. }
  split; intros ts Q E Hw Hn HQ HE; cbn [parse_selset]; wstep; wstep; cbn iota.
  - apply Hl; [assumption|lia| |intros; wstep]. intros l r1 r2 [? ?] ? ? ?. wdone HQ. econstructor; eassumption.
  - repeat wstep.
  - apply Hl; [assumption|lia| |intros; wstep]. intros l r1 r2 [? ?] ? ? ?. wdone HQ. apply os_some. econstructor; eassumption.
  - wstep. wdone HQ. constructor.
Qed.

Lemma parse_vardef_spec n : spec 1 n (parse_vardef fok n) (g_vardef fok Any).
Proof.
  intros ts Q E Hw Hn HQ HE. unfold parse_vardef. wstep. wstep; [|wstep]. wstep. wstep; [|wstep]. wstep. wstep; [|wstep].
  wstep. wspec (parse_type_spec n). wstep. wspec (parse_default_spec n). wstep. wdone HQ. econstructor; eassumption.
Qed.

Lemma parse_vardefs_spec n : spec 0 n (parse_vardefs fok n) (g_vardefs fok Any).
Proof.
  intros ts Q E Hw Hn HQ HE. unfold parse_vardefs. wstep. wstep; cbn iota.
  - wstep. eapply (do_loop_spec n n); [apply parse_vardef_spec| |assumption|lia|lia| |].
    + intros ts' Q' E' Hw' H'. apply wp_peek; [assumption|]. intros; apply H'.
    + intros l r1 ? ? ?. wstep. wstep; [|wstep]. wstep. wdone HQ. eapply vs_some; eassumption.
    + intros; wstep.
  - wstep. wdone HQ. constructor.
Qed.

Lemma parse_optype_spec n : spec 1 n parse_optype g_opkind.
Proof.
  intros ts Q E Hw Hn HQ HE. unfold parse_optype, mustn. wstep. apply wp_must; [apply proper_isn; reflexivity|assumption| |].
  - intros t r -> Ht Hr. apply isn_term with (r := r) in Ht. destruct Ht as [Ht Hin]. apply wp_ret.
    eapply HQ; [|assumption|cbn [List.length]; lia]. destruct t as [k lit ln c]. inversion Ht; subst. cbn [tlit] in *.
    destruct Hin as [<-|[<-|[<-|[]]]]; [apply ok_query|apply ok_mutation|apply ok_subscription]; constructor.
  - wstep.
Qed.

Lemma parse_operation_spec n : spec 1 n (parse_operation fok n false) (fun ts b r => exists o, b = DOp o /\ g_op fok Any ts o r).
Proof.
  intros ts Q E Hw Hn HQ HE. unfold parse_operation. wstep. wspec (parse_optype_spec n). wstep. wstep.
  - wstep. wspec (parse_vardefs_spec n). wstep. wspec (parse_directives_spec n false (op_location a)). wstep.
    wspec (proj1 (parse_selset_spec n)). wstep. wdone HQ. eexists. split; [reflexivity|]. eapply op_long; try eassumption.
    constructor; eassumption.
  - wstep. wspec (parse_vardefs_spec n). wstep. wspec (parse_directives_spec n false (op_location a)). wstep.
    wspec (proj1 (parse_selset_spec n)). wstep. wdone HQ. eexists. split; [reflexivity|]. eapply op_long; try eassumption.
    constructor.
Qed.
Lemma parse_shorthand_spec n : spec 1 n (parse_operation fok n true) (fun ts b r => exists o, b = DOp o /\ g_op fok Any ts o r).
Proof.
  intros ts Q E Hw Hn HQ HE. unfold parse_operation. wstep.
  wspec (proj1 (parse_selset_spec n)). wstep. wdone HQ. eexists. split; [reflexivity|]. apply op_short; eassumption.
Qed.

(** The nil result of parseFragmentDefinition: [fragment] not followed by a Name. *)
Definition dangling_fragment (ts : list token) : Prop :=
  exists r, kw "fragment" ts r /\ forall n r', ~ name n r r'.

Lemma parse_fragment_wp n ts r0 (Q : option body -> list token -> Prop) (E : list token -> Prop) : wf ts -> (List.length ts <= n)%nat ->
  kw "fragment" ts r0 ->
  (forall f r, g_frag fok Any ts f r -> wf r -> (List.length r + 1 <= List.length ts)%nat -> Q (Some (DFrag f)) r) ->
  (forall r, dangling_fragment ts -> wf r -> Q None r) ->
  (forall r, wf r -> (List.length r <= List.length ts)%nat -> ~ dangling_fragment ts -> E r) -> wp (parse_fragment fok n) ts Q E.
Proof.
  intros Hw Hn Hf HQ HN HE'. unfold parse_fragment. wstep. wstep; cbn iota.
  2:{ exfalso. match goal with H : forall r, ~ _ |- _ => exact (H _ Hf) end. }
  cbn [negb]. assert (r = r0) by (inversion Hf; subst; match goal with H : kw "fragment" _ r |- _ => inversion H; subst; reflexivity end).
  subst r0. wstep. wstep.
  2:{ wstep. apply HN; [|assumption]. exists r. split; assumption. }
  assert (Hnd : ~ dangling_fragment ts).
  { intros (r1 & H5 & H6). inversion Hf; subst. inversion H5; subst. eapply H6. eassumption. }
  assert (HE : forall r, wf r -> (List.length r <= List.length ts)%nat -> E r) by (intros; apply HE'; assumption).
  destruct (beqb (tlit t) (B "on")) eqn:Hon.
  { repeat wstep. }
  apply beqb_false in Hon. wstep. wspec (parse_type_condition_spec n). wstep. wspec (parse_directives_spec n false LFragmentDefinition).
  wstep. wspec (proj1 (parse_selset_spec n)). wstep. wdone HQ. econstructor; eassumption.
Qed.

Lemma parse_desc_spec n : spec 0 n parse_desc g_desc.
Proof.
  intros ts Q E Hw Hn HQ HE. unfold parse_desc. wstep. wstep; wstep; (wdone HQ); [apply de_some; assumption|apply de_none].
Qed.

Lemma parse_ivdef_spec n loc : spec 1 n (parse_ivdef fok n loc) (g_ivdef fok Any loc).
Proof.
  intros ts Q E Hw Hn HQ HE. unfold parse_ivdef. wstep. wspec (parse_desc_spec n). wstep. wstep; [|wstep]. wstep. wstep; [|wstep].
  wstep. wspec (parse_type_spec n). wstep. wspec (parse_default_spec n). wstep. wspec (parse_directives_spec n true loc).
  wstep. wdone HQ. econstructor; eassumption.
Qed.

Lemma parse_argdefs_spec n : spec 0 n (parse_argdefs fok n) (g_argdefs fok Any).
Proof.
  intros ts Q E Hw Hn HQ HE. unfold parse_argdefs. wstep. wstep; cbn iota.
  - wstep. eapply (do_loop_spec n n); [apply parse_ivdef_spec| |assumption|lia|lia| |].
    + intros; apply wp_at_close; assumption.
    + intros l r1 ? ? ?. wstep. wstep; [|wstep]. wstep. wdone HQ. eapply ad_some; eassumption.
    + intros; wstep.
  - wstep. wdone HQ. constructor.
Qed.

Lemma parse_fielddef_spec n : spec 1 n (parse_fielddef fok n) (g_fielddef fok Any).
Proof.
  intros ts Q E Hw Hn HQ HE. unfold parse_fielddef. wstep. wspec (parse_desc_spec n). wstep. wstep; [|wstep]. wstep.
  wspec (parse_argdefs_spec n). wstep. wstep; [|wstep].
  wstep. wspec (parse_type_spec n). wstep. wspec (parse_directives_spec n true LFieldDefinition).
  wstep. wdone HQ. econstructor; eassumption.
Qed.
Lemma parse_enumval_spec n : spec 1 n (parse_enumval fok n) (g_enumval fok Any).
Proof.
  intros ts Q E Hw Hn HQ HE. unfold parse_enumval. wstep. wspec (parse_desc_spec n). wstep. wstep; [|wstep].
  destruct (inb (tlit t) _) eqn:Hin; [repeat wstep|]. apply inb_notIn in Hin. wstep.
  wspec (parse_directives_spec n true LEnumValue). wstep. wdone HQ. econstructor; try eassumption; intros Hs; apply Hin; rewrite Hs; cbn; auto.
Qed.

(** Optional blocks; an omitted block is never followed by "{". *)
Definition greedy {A} (g : G (list A)) : G (list A) := fun ts l r => g ts l r /\ (l = [] -> forall r', ~ pun "{" r r').
Lemma block_spec {A} n (body : P A) g : spec 1 n body g ->
  spec 0 n (b <- skip1 KPunct "{" ;; if b then do_loop n body (skip1 KPunct "}") else pret []) (greedy (g_block g)).
Proof.
  intros Hb ts Q E Hw Hn HQ HE. wstep. wstep; cbn iota.
  - eapply do_loop_close_spec; [exact Hb|assumption|lia|lia| |intros; wstep].
    intros l r1 r2 Hm1 ? ? ?. wdone HQ. split; [eapply bl_some; eassumption|]. intros ->. exfalso. destruct Hm1. congruence.
  - wstep. wdone HQ. split; [constructor|]. intros _. assumption.
Qed.
Lemma parse_fielddefs_spec n : spec 0 n (parse_fielddefs fok n) (greedy (g_block (g_fielddef fok Any))).
Proof. apply block_spec. apply parse_fielddef_spec. Qed.
Lemma parse_enumvals_spec n : spec 0 n (parse_enumvals fok n) (greedy (g_block (g_enumval fok Any))).
Proof. apply block_spec. apply parse_enumval_spec. Qed.
Lemma parse_inputs_spec n : spec 0 n (parse_inputs fok n) (greedy (g_block (g_ivdef fok Any LInputFieldDefinition))).
Proof. apply block_spec. apply parse_ivdef_spec. Qed.

Lemma member_spec n : spec 1 n (parse_type n) (g_member Any).
Proof. eapply spec_mono; [apply parse_type_spec|]. intros ts a r H. apply mb_any; [discriminate|exact H]. Qed.

Lemma parse_implements_spec n : spec 0 n (parse_implements n) (g_implements Any).
Proof.
  intros ts Q E Hw Hn HQ HE. unfold parse_implements. wstep. wstep; cbn iota; [|wstep; wdone HQ; constructor].
  wstep. wstep; cbn iota; (eapply do_loop_sep_spec; [apply (member_spec n)|assumption|lia|lia| |intros; wstep]);
    intros l r1 ? ? ?; wdone HQ; (eapply im_some; [eassumption| |eassumption]); [right; assumption|left; reflexivity].
Qed.
Lemma parse_members_spec n : spec 0 n (parse_members n) (g_members Any).
Proof.
  intros ts Q E Hw Hn HQ HE. unfold parse_members. wstep. wstep; cbn iota; [|wstep; wdone HQ; constructor].
  wstep. wstep; cbn iota; (eapply do_loop_sep_spec; [apply (member_spec n)|assumption|lia|lia| |intros; wstep]);
    intros l r1 ? ? ?; wdone HQ; (eapply me_some; [eassumption| |eassumption]); [right; assumption|left; reflexivity].
Qed.

Definition no_block (b : body) (r : list token) : Prop := block_omitted b -> ~ exists r', pun "{" r r'.
Lemma no_block_intro {A} (l : list A) r : (l = [] -> forall r', ~ pun "{" r r') -> l = [] -> ~ exists r', pun "{" r r'.
Proof. intros H Hl (r' & Hr). exact (H Hl r' Hr). Qed.

Lemma kind_of_kw_inv s k : kind_of_kw s = Some k ->
  s = match k with KScalar => B "scalar" | KObject => B "type" | KInterface => B "interface" | KUnion => B "union"
                 | KEnum => B "enum" | KInputObject => B "input" end.
Proof.
  unfold kind_of_kw. intros H.
  repeat match type of H with (if beqb ?a ?b then _ else _) = _ => destruct (beqb_spec a b); [injection H as <-; assumption|] end.
  discriminate.
Qed.
Lemma type_kw_kind s : In s (map B type_kws) -> exists k, kind_of_kw s = Some k.
Proof. cbn [map type_kws]. intros H. repeat (destruct H as [<-|H]; [eexists; vm_compute; reflexivity|]). destruct H. Qed.

(** on a token list that starts with one of the type keywords *)
Lemma parse_typebody_wp n desc ts t0 r0 (Q : tydef -> list token -> Prop) (E : list token -> Prop) : wf ts -> (List.length ts <= n)%nat ->
  ts = t0 :: r0 -> In (tlit t0) (map B type_kws) ->
  (forall d r, g_tydef fok Any desc ts d r -> no_block (DType d) r -> wf r -> (List.length r + 1 <= List.length ts)%nat -> Q d r) ->
  (forall r, wf r -> (List.length r <= List.length ts)%nat -> E r) -> wp (parse_typebody fok n desc) ts Q E.
Proof.
  intros Hw Hn Hts Hin HQ HE. unfold parse_typebody. wstep. wstep; [|wstep]. subst ts.
  match goal with H : terminal KName (tlit t) _ _ |- _ => inversion H; subst end. cbn [tlit] in *.
  match goal with H : ?l = tlit t |- _ => rename H into Hl | H : tlit t = ?l |- _ => rename H into Hl | _ => idtac end.
  destruct (type_kw_kind _ Hin) as (k & Hk). rewrite Hk. apply kind_of_kw_inv in Hk.
  wstep. wstep; [|wstep]. wstep.
  destruct k; subst; cbn iota.
  - do 2 wstep. wspec (parse_directives_spec n true LScalar). repeat wstep. eapply HQ; [|intros []|assumption|lia].
    eapply td_scalar; try eassumption. rewrite Hk in *. assumption.
  - wspec (parse_implements_spec n). wstep. wspec (parse_directives_spec n true LObject). wstep. wspec (parse_fielddefs_spec n).
    repeat wstep. match goal with H : greedy _ _ _ _ |- _ => destruct H as [Hg Hb] end.
    eapply HQ; [|intros Ho; apply (no_block_intro _ _ Hb Ho)|assumption|lia]. eapply td_object; try eassumption. rewrite Hk in *. assumption.
  - do 2 wstep. wspec (parse_directives_spec n true LInterface). wstep. wspec (parse_fielddefs_spec n).
    repeat wstep. match goal with H : greedy _ _ _ _ |- _ => destruct H as [Hg Hb] end.
    eapply HQ; [|intros Ho; apply (no_block_intro _ _ Hb Ho)|assumption|lia]. eapply td_interface; try eassumption. rewrite Hk in *. assumption.
  - do 2 wstep. wspec (parse_directives_spec n true LUnion). do 3 wstep. wspec (parse_members_spec n).
    repeat wstep. eapply HQ; [|intros []|assumption|lia]. eapply td_union; try eassumption. rewrite Hk in *. assumption.
  - do 2 wstep. wspec (parse_directives_spec n true LEnum). do 5 wstep. wspec (parse_enumvals_spec n).
    repeat wstep. match goal with H : greedy _ _ _ _ |- _ => destruct H as [Hg Hb] end.
    eapply HQ; [|intros Ho; apply (no_block_intro _ _ Hb Ho)|assumption|lia]. eapply td_enum; try eassumption. rewrite Hk in *. assumption.
  - do 2 wstep. wspec (parse_directives_spec n true LInputObject). do 7 wstep. wspec (parse_inputs_spec n).
    repeat wstep. match goal with H : greedy _ _ _ _ |- _ => destruct H as [Hg Hb] end.
    eapply HQ; [|intros Ho; apply (no_block_intro _ _ Hb Ho)|assumption|lia]. eapply td_input; try eassumption. rewrite Hk in *. assumption.
Qed.

Lemma parse_optypedef_spec n : spec 1 n (parse_optypedef n) (g_optype Any).
Proof.
  intros ts Q E Hw Hn HQ HE. unfold parse_optypedef. wstep. wspec (parse_optype_spec n). wstep. wstep; [|wstep].
  wstep. wspec (parse_type_spec n). wstep. apply named_only_wp; [assumption| |wstep]. intros nm nn ->. wstep. wdone HQ.
  econstructor; [eassumption|eassumption|]. apply g_type_named. assumption.
Qed.
Lemma parse_optypedefs_spec n : spec 2 n (parse_optypedefs n) (fun ts l r => l <> [] /\ exists r1 r2, pun "{" ts r1 /\ many1 (g_optype Any) r1 l r2 /\ pun "}" r2 r).
Proof.
  intros ts Q E Hw Hn HQ HE. unfold parse_optypedefs. wstep. wstep; [|wstep]. wstep.
  eapply (do_loop_spec n n); [apply parse_optypedef_spec| |assumption|lia|lia| |].
  - intros; apply wp_at_close; assumption.
  - intros l r1 Hm ? ?. wstep. wstep; [|wstep]. wstep. wdone HQ. split; [exact (proj2 Hm)|].
    eexists _, _. split; [eassumption|]. split; eassumption.
  - intros; wstep.
Qed.
Lemma parse_schemadef_spec n : spec 1 n (parse_schemadef fok n) (g_schema fok Any).
Proof.
  intros ts Q E Hw Hn HQ HE. unfold parse_schemadef. wstep. wstep; [|wstep]. wstep. wspec (parse_directives_spec n true LSchema).
  wstep. wspec (parse_optypedefs_spec n). wstep. wdone HQ.
  match goal with H : _ <> [] /\ _ |- _ => destruct H as (_ & r5 & r6 & ? & ? & ?) end. econstructor; eassumption.
Qed.
Lemma parse_schemaext_wp n ts (Q : schemadef -> list token -> Prop) (E : list token -> Prop) : wf ts -> (List.length ts <= n)%nat ->
  (forall d r, g_schemaext fok Any ts d r -> no_block (XSchema d) r -> wf r -> (List.length r + 1 <= List.length ts)%nat -> Q d r) ->
  (forall r, wf r -> (List.length r <= List.length ts)%nat -> E r) -> wp (parse_schemaext fok n) ts Q E.
Proof.
  intros Hw Hn HQ HE. unfold parse_schemaext. wstep. wstep; [|wstep]. wstep. wspec (parse_directives_spec n true LSchema).
  wstep. wstep; cbn iota; wstep.
  - wspec (parse_optypedefs_spec n). match goal with H : _ <> [] /\ _ |- _ => destruct H as (Hne & r5 & r6 & H5' & H6' & H7') end.
    assert (Hok : wp (pret (mkSd a a0)) r2 Q E).
    { wstep. eapply HQ; [|intros Ho; contradiction|assumption|lia].
      econstructor; [eassumption|eassumption|econstructor; eassumption|]. right. exact Hne. }
    destruct a, a0; try exact Hok. congruence.
  - wstep. destruct a as [|d ds]; [repeat wstep|]. wstep. eapply HQ; [| |assumption|lia].
    + econstructor; [eassumption|eassumption|constructor|]. left. discriminate.
    + intros _ (r' & Hr'). match goal with H : forall r, ~ _ |- _ => exact (H _ Hr') end.
Qed.

Lemma index_of_nth x l i : index_of x l = Some i -> nth_error l i = Some x.
Proof.
  revert i. induction l as [|y l IH]; intros i; cbn; [discriminate|]. destruct (beqb_spec x y) as [->|].
  - intros H. injection H as <-. reflexivity.
  - destruct (index_of x l) as [j|]; [|discriminate]. cbn. intros H. injection H as <-. apply IH. reflexivity.
Qed.
Lemma index_of_In x l : In x l -> exists i, index_of x l = Some i.
Proof.
  induction l as [|y l IH]; intros H; [destruct H|]. cbn. destruct (beqb_spec x y); [eexists; reflexivity|].
  destruct H as [->|H]; [congruence|]. destruct (IH H) as (i & ->). eexists. reflexivity.
Qed.
Lemma location_names_nodup : NoDup location_names.
Proof.
  unfold location_names. cbn [map].
  repeat (constructor; [cbn [In]; intros H; repeat (destruct H as [H|H]; [discriminate H|]); exact H|]). constructor.
Qed.
Lemma location_bit n i : In n location_names ->
  (N.testbit (location_by_name n) (N.of_nat i) = true <-> nth_error location_names i = Some n).
Proof.
  intros Hin. destruct (index_of_In _ _ Hin) as (j & Hj). unfold location_by_name. rewrite Hj.
  pose proof (index_of_nth _ _ _ Hj) as Hnj. rewrite N.shiftl_1_l, N.pow2_bits_eqb, N.eqb_eq. split.
  - intros H. apply Nnat.Nat2N.inj in H. subst. exact Hnj.
  - intros H. f_equal. apply (proj1 (NoDup_nth_error location_names) location_names_nodup); [|congruence].
    apply nth_error_Some. congruence.
Qed.
Lemma fold_lor_bit l : forall acc i, N.testbit (fold_left N.lor l acc) i = true <->
  N.testbit acc i = true \/ exists x, In x l /\ N.testbit x i = true.
Proof.
  induction l as [|y l IH]; intros acc i; cbn [fold_left].
  - split; [auto|]. intros [H|(x & [] & _)]. exact H.
  - rewrite IH, N.lor_spec, orb_true_iff. split.
    + intros [[H|H]|(x & H1 & H2)]; [left; exact H|right; exists y; cbn; auto|right; exists x; cbn; auto].
    + intros [H|(x & [->|H1] & H2)]; [auto|auto|right; exists x; auto].
Qed.
Lemma locations_fold ns : Forall (fun n => In n location_names) ns ->
  locations_denote ns (fold_left N.lor (map location_by_name ns) 0%N).
Proof.
  intros Hns i. rewrite Forall_forall in Hns. rewrite fold_lor_bit, N.bits_0. split.
  - intros [H|(x & H1 & H2)]; [discriminate|]. apply in_map_iff in H1. destruct H1 as (n & <- & Hn).
    exists n. split; [exact Hn|]. apply location_bit; auto.
  - intros (n & Hn & Hi). right. exists (location_by_name n). split; [apply in_map; exact Hn|]. apply location_bit; auto.
Qed.
Lemma locations_unique ns l l' : locations_denote ns l -> locations_denote ns l' -> l = l'.
Proof.
  intros H H'. apply N.bits_inj. intros i. rewrite <- (Nnat.N2Nat.id i). specialize (H (N.to_nat i)). specialize (H' (N.to_nat i)).
  destruct (N.testbit l _), (N.testbit l' _); try reflexivity.
  - symmetry. apply H', H. reflexivity.
  - apply H, H'. reflexivity.
Qed.

Lemma parse_dirloc_spec n : spec 1 n parse_dirloc (fun ts l r => exists nm, g_dirloc Any ts nm r /\ l = location_by_name nm).
Proof.
  intros ts Q E Hw Hn HQ HE.
  assert (H : wp (mustn KName location_names) ts (fun t r => Q (location_by_name (tlit t)) r) (fun r => wp (@perr dirloc [expected KName location_names]) r Q E)).
  { apply wp_must; [apply proper_isn; reflexivity|assumption| |].
    - intros t r -> Ht Hr. apply isn_term with (r := r) in Ht. destruct Ht as [Ht Hin].
      eapply HQ; [|assumption|cbn [List.length]; lia]. eexists. split; [|reflexivity]. constructor; [exact Ht|exact Hin|right; discriminate].
    - repeat wstep. }
  unfold parse_dirloc, wp in *. destruct (mustn KName location_names ts); exact H.
Qed.

Lemma sep1_map {A C} s (g : G A) (f : A -> C) ts l r : sep1 s (fun ts c r => exists a, g ts a r /\ c = f a) ts l r ->
  exists l', sep1 s g ts l' r /\ l = map f l'.
Proof.
  induction 1 as [ts c r (a & H & ->)|ts c r1 r2 l r (a & H & ->) Hp Hs (l' & IH & ->)].
  - exists [a]. split; [apply sep_one; exact H|reflexivity].
  - exists (a :: l'). split; [eapply sep_more; eassumption|reflexivity].
Qed.
Lemma sep1_Forall {A} s (g : G A) (P : A -> Prop) ts l r : (forall ts a r, g ts a r -> P a) -> sep1 s g ts l r -> Forall P l.
Proof. intros H. induction 1; constructor; eauto. Qed.

Lemma parse_dirlocs_spec n : spec 1 n (parse_dirlocs n) (fun ts l r => exists r1 ns, maybe "|" ts r1 /\ sep1 "|" (g_dirloc Any) r1 ns r /\ locations_denote ns l).
Proof.
  intros ts Q E Hw Hn HQ HE.
  assert (Hl : forall ts', maybe "|" ts ts' -> wf ts' -> (List.length ts' <= List.length ts)%nat ->
    wp (l <- do_loop n parse_dirloc (pnot (skip1 KPunct "|")) ;; pret (fold_left N.lor l 0%N)) ts' Q E).
  { intros ts' Hm Hw' Hl'. wstep. eapply do_loop_sep_spec; [apply (parse_dirloc_spec n)|assumption|lia|lia| |intros; wstep].
    intros l r1 Hs ? ?. wstep. wdone HQ. apply sep1_map in Hs. destruct Hs as (ns & Hs & ->). exists ts', ns.
    split; [exact Hm|]. split; [exact Hs|]. apply locations_fold. eapply sep1_Forall; [|exact Hs].
    intros ? ? ? Hd. inversion Hd; assumption. }
  unfold parse_dirlocs. wstep. wstep; cbn iota.
  - apply Hl; [right; assumption|assumption|lia].
  - apply Hl; [left; reflexivity|assumption|lia].
Qed.

Lemma parse_dirdef_wp n desc ts r0 (Q : dirdef -> list token -> Prop) (E : list token -> Prop) : wf ts -> (List.length ts <= n)%nat ->
  kw "directive" ts r0 ->
  (forall d r, g_dirdef fok Any desc ts d r -> wf r -> (List.length r + 1 <= List.length ts)%nat -> Q d r) ->
  (forall r, wf r -> (List.length r <= List.length ts)%nat -> E r) -> wp (parse_dirdef fok n desc) ts Q E.
Proof.
  intros Hw Hn Hk HQ HE. unfold parse_dirdef. wstep. wstep; cbn iota.
  2:{ exfalso. match goal with H : forall r, ~ _ |- _ => exact (H _ Hk) end. }
  cbn [negb]. wstep. wstep; [|wstep]. wstep. wstep; [|wstep]. wstep. wspec (parse_argdefs_spec n). wstep. wstep; [|wstep]. wstep.
  wspec (parse_dirlocs_spec n). wstep. wdone HQ. match goal with H : exists _ _, _ |- _ => destruct H as (r7 & ns & ? & ? & ?) end.
  econstructor; eassumption.
Qed.

(** parseDefinition: the derivation, or the nil definition *)
Lemma parse_tsdef_wp n desc ts t0 r0 (Q : body -> list token -> Prop) (E : list token -> Prop) : wf ts -> (List.length ts <= n)%nat ->
  ts = t0 :: r0 -> isn KName (map B (tsdef_kws desc)) t0 = true ->
  (forall b r, match b with
               | DSchema s => desc = [] /\ g_schema fok Any ts s r
               | DType d => g_tydef fok Any desc ts d r
               | DDir d => g_dirdef fok Any desc ts d r
               | _ => False
               end -> no_block b r -> wf r -> (List.length r + 1 <= List.length ts)%nat -> Q b r) ->
  (forall r, wf r -> (List.length r <= List.length ts)%nat -> E r) -> wp (parse_tsdef fok n desc) ts Q E.
Proof.
  intros Hw Hn Hts Hin HQ HE. unfold parse_tsdef. wstep. wstep; cbn iota.
  { wstep. wspec (parse_schemadef_spec n). wstep. eapply HQ; [cbn iota|intros []|assumption|lia]. split; [|assumption].
    destruct desc as [|c desc]; [reflexivity|]. exfalso. subst ts.
    match goal with H : kw "schema" _ _ |- _ => inversion H; subst end. vm_compute in Hin. discriminate. }
  wstep. wstep; cbn iota.
  { wstep. eapply parse_dirdef_wp; [assumption|lia|eassumption| |intros; wstep].
    intros d r1 Hd ? ?. wstep. eapply HQ; [exact Hd|intros []|assumption|lia]. }
  wstep. apply wp_peek; [assumption|]. intros t r Ht. rewrite Hts in Ht. injection Ht as <- <-.
  destruct (isn KName (map B type_kws) t0) eqn:Hty.
  - apply isn_term with (r := r0) in Hty. destruct Hty as [_ Hty].
    wstep. eapply parse_typebody_wp; [assumption|lia|exact Hts|exact Hty| |intros; wstep].
    intros d r1 Hd ? ? ?. wstep. eapply HQ; [exact Hd|assumption|assumption|lia].
  - exfalso. apply isn_term with (r := r0) in Hin. destruct Hin as [Hk Hin]. unfold tsdef_kws in Hin. rewrite map_app in Hin.
    assert (Hn2 : ~ In (tlit t0) (map B type_kws)).
    { intros Hi. unfold isn in Hty. apply inb_In in Hi. rewrite Hi, andb_true_r in Hty.
      assert (Hkk : tkind t0 = KName) by (inversion Hk as [l0 c0 r' Heq]; rewrite <- Heq; reflexivity). rewrite Hkk in Hty. discriminate. }
    apply in_app_or in Hin. destruct Hin as [Hin|Hin]; [contradiction|]. cbn [map app In] in Hin.
    destruct Hin as [Hin|Hin].
    + rewrite <- Hin in Hk. subst ts. match goal with H : forall r, ~ kw "directive" _ r |- _ => exact (H _ Hk) end.
    + destruct desc as [|c desc]; cbn in Hin; [|exact Hin]. destruct Hin as [Hin|[]]. rewrite <- Hin in Hk. subst ts.
      match goal with H : forall r, ~ kw "schema" _ r |- _ => exact (H _ Hk) end.
Qed.

Lemma parse_tsext_wp n ts (Q : body -> list token -> Prop) (E : list token -> Prop) : wf ts -> (List.length ts <= n)%nat ->
  (forall b r, g_body fok Any ts b r -> no_block b r -> wf r -> (List.length r + 1 <= List.length ts)%nat -> Q b r) ->
  (forall r, wf r -> (List.length r <= List.length ts)%nat -> E r) -> wp (parse_tsext fok n) ts Q E.
Proof.
  intros Hw Hn HQ HE. unfold parse_tsext. wstep. wstep; [|wstep]. wstep. wstep; cbn iota.
  { wstep. eapply parse_schemaext_wp; [assumption|lia| |intros; wstep]. intros d r1 Hd ? ? ?. wstep.
    eapply HQ; [eapply b_xschema; eassumption|assumption|assumption|lia]. }
  wstep. apply wp_peek; [assumption|]. intros t0 r0 Hts. destruct (isn KName (map B type_kws) t0) eqn:Hty.
  - apply isn_term with (r := r0) in Hty. destruct Hty as [_ Hty].
    wstep. eapply parse_typebody_wp; [assumption|lia|exact Hts|exact Hty| |intros; wstep].
    intros d r1 Hd ? ? ?. wstep. eapply HQ; [eapply b_xtype; try eassumption; right; discriminate|assumption|assumption|lia].
  - repeat wstep.
Qed.

Lemma desc_text ts d r : g_desc ts d r -> d = [] -> ts = r \/ terminal KString [] ts r.
Proof. intros H Hd. inversion H; subst; auto. Qed.

Lemma parse_body_wp n ts (Q : option body -> list token -> Prop) (E : list token -> Prop) : wf ts -> (List.length ts <= n)%nat ->
  (forall b r, g_body fok Any ts b r -> no_block b r -> wf r -> (List.length r + 1 <= List.length ts)%nat -> Q (Some b) r) ->
  (forall r, dangling_fragment ts -> wf r -> Q None r) ->
  (forall r, wf r -> (List.length r <= List.length ts)%nat -> ~ dangling_fragment ts -> E r) -> wp (parse_body fok n) ts Q E.
Proof.
  intros Hw Hn HQ HN HE'. destruct (wf_cons _ Hw) as (t & r & ->). unfold parse_body. wstep. unfold wp at 1. cbn [tok].
  set (ts := t :: r) in *.
  destruct (isn KName [B "query"; B "mutation"; B "subscription"] t || is1 KPunct (B "{") t) eqn:Hq.
  { assert (Hnd : ~ dangling_fragment ts).
    { intros (r1 & H1 & _). subst ts. inversion H1; subst. vm_compute in Hq. discriminate. }
    assert (HE : forall r, wf r -> (List.length r <= List.length ts)%nat -> E r) by (intros; apply HE'; assumption).
    destruct (beqb (tlit t) (B "{")); wstep.
    - wspec (parse_shorthand_spec n). wstep. match goal with H : exists _, _ |- _ => destruct H as (o & -> & ?) end.
      eapply HQ; [apply b_op; eassumption|intros []|assumption|lia].
    - wspec (parse_operation_spec n). wstep. match goal with H : exists _, _ |- _ => destruct H as (o & -> & ?) end.
      eapply HQ; [apply b_op; eassumption|intros []|assumption|lia]. }
  destruct (is1 KName (B "fragment") t) eqn:Hf.
  { apply is1_term with (r := r) in Hf. eapply parse_fragment_wp; [assumption|lia|exact Hf| | |].
    - intros f r1 H1 H2 H3. eapply HQ; [apply b_frag; exact H1|intros []|assumption|lia].
    - exact HN.
    - exact HE'. }
  assert (Hnd : ~ dangling_fragment ts).
  { intros (r1 & H1 & _). exact (is1_neg _ _ _ _ Hf _ H1). }
  assert (HE : forall r, wf r -> (List.length r <= List.length ts)%nat -> E r) by (intros; apply HE'; assumption).
  destruct (is1 KName (B "extend") t) eqn:He.
  { wstep. eapply parse_tsext_wp; [assumption|lia| |exact HE]. intros b r1 ? ? ? ?. wstep. apply HQ; assumption. }
  wstep. wspec (parse_desc_spec n). wstep. apply wp_peek; [assumption|]. intros t0 r1 Hts.
  destruct (isn KName (map B (tsdef_kws a)) t0) eqn:Hk; [|repeat wstep].
  wstep. eapply parse_tsdef_wp; [assumption|lia|exact Hts|exact Hk| |intros; wstep].
  intros b r2 Hb Hnb ? ?. wstep. eapply HQ; [|exact Hnb|assumption|lia]. destruct b; try contradiction.
  - destruct Hb as [Ha Hb]. match goal with H : g_desc _ _ _ |- _ => destruct (desc_text _ _ _ H Ha) as [Hd|Hd] end.
    + rewrite Hd. apply b_schema. exact Hb.
    + eapply b_schema_desc; [discriminate|exact Hd|exact Hb].
  - eapply b_type; eassumption.
  - eapply b_dir; eassumption.
Qed.

(** ** Parse *)
(** The shape of an outcome of the main loop from [ts] on: a derivation up to EOF, an error, or — after some
    definitions — the dangling [fragment]. *)
Inductive crashes : list token -> Prop :=
| cr_now ts : dangling_fragment ts -> crashes ts
| cr_later ts d r : g_def fok Any ts d r -> longest_match d r -> crashes r -> crashes ts.

Lemma parse_loop_spec n m : forall ts c, wf ts -> (List.length ts <= n)%nat -> (List.length ts <= m)%nat ->
  match parse_loop fok n m c ts with
  | POk (ds, c') r => exists e, r = [e] /\ tkind e = KEOF /\ g_defs fok Any ts ds r /\ c' = fold_left count_def (map def_body ds) c
  | PErr _ r => wf r
  | PCrash cr => cr = NilDeref /\ crashes ts
  end.
Proof.
  induction m as [|m IH]; intros ts c Hw Hn Hm.
  { pose proof (wf_len _ Hw). lia. }
  cbn [parse_loop]. unfold pbind at 1. unfold parse_definition. destruct (wf_cons _ Hw) as (t & rt & Hts).
  assert (Htok : tok ts = POk t ts) by (rewrite Hts; reflexivity). unfold pbind at 1. rewrite Htok. unfold pbind at 1.
  pose proof (parse_body_wp n ts
    (fun o r => match o with
                | Some b => g_body fok Any ts b r /\ no_block b r /\ wf r /\ (List.length r + 1 <= List.length ts)%nat
                | None => dangling_fragment ts
                end) wf Hw Hn) as Hb.
  unfold wp in Hb. lapply Hb; [clear Hb; intros Hb|intros; auto]. lapply Hb; [clear Hb; intros Hb|intros; auto].
  lapply Hb; [clear Hb; intros Hb|intros; auto].
  destruct (parse_body fok n ts) as [[b|] r|e r|cr]; [| |exact Hb|contradiction].
  2:{ cbn. split; [reflexivity|]. apply cr_now. exact Hb. }
  destruct Hb as (Hg & Hnb & Hwr & Hl).
  set (d := mkDef (tline t) (tcol t) b). assert (Hd : g_def fok Any ts d r) by (subst ts; constructor; exact Hg).
  assert (Hlm : longest_match d r) by exact Hnb.
  cbn [option_map pret]. fold d. cbn [def_body].
  destruct (wf_cons _ Hwr) as (t2 & r2 & Hr).
  assert (Hpk : forall k, peek0 k r = POk (is0 k t2) r) by (intros k; rewrite Hr; reflexivity).
  unfold pbind at 1. rewrite Hpk. destruct (is0 KIllegal t2) eqn:Hill.
  { unfold perr, pbind, pfail. rewrite Hr. cbn [tok]. rewrite <- Hr. exact Hwr. }
  unfold pbind at 1. rewrite Hpk. destruct (is0 KEOF t2) eqn:Heof.
  { cbn. exists t2. assert (Hke : tkind t2 = KEOF) by (apply kind_eqb_true; exact Heof).
    assert (r2 = []) by (rewrite Hr in Hwr; cbn in Hwr; unfold is_last in Hwr; rewrite Hke in Hwr; exact Hwr). subst r2.
    split; [exact Hr|]. split; [exact Hke|]. split; [|reflexivity]. apply ds_one; assumption. }
  assert (Hn' : (List.length r <= n)%nat) by lia. assert (Hm' : (List.length r <= m)%nat) by lia.
  specialize (IH r (count_def c b) Hwr Hn' Hm'). change (def_body d) with b. unfold pbind.
  destruct (parse_loop fok n m (count_def c b) r) as [[ds c'] r'|e r'|cr].
  - cbn. destruct IH as (e & H1 & H2 & H3 & H4). exists e. split; [exact H1|]. split; [exact H2|].
    split; [eapply ds_more; eassumption|]. exact H4.
  - exact IH.
  - destruct IH as [H1 H2]. split; [exact H1|]. eapply cr_later; eassumption.
Qed.

Theorem parse_tokens_sound ts : wf ts ->
  match parse_tokens fok ts with
  | POk doc r => exists e, r = [e] /\ tkind e = KEOF /\ g_defs fok Any ts (doc_defs doc) r /\
      doc = doc_of (doc_defs doc, fold_left count_def (map def_body (doc_defs doc)) (mkC 0 0 0 0 0 0 []))
  | PErr _ r => wf r
  | PCrash cr => cr = NilDeref /\ crashes ts
  end.
Proof.
  intros Hw. pose proof (parse_loop_spec (List.length ts) (List.length ts) ts (mkC 0 0 0 0 0 0 []) Hw (le_n _) (le_n _)) as H.
  unfold parse_tokens, pbind. destruct (parse_loop fok _ _ _ ts) as [[ds c'] r|e r|cr]; [|exact H|exact H].
  destruct H as (e & H1 & H2 & H3 & ->). cbn [pret].
  assert (Hds : forall x, doc_defs (doc_of (ds, x)) = ds) by (intros [? ? ? ? ? ? ?]; reflexivity). rewrite Hds.
  exists e. split; [exact H1|]. split; [exact H2|]. split; [exact H3|reflexivity].
Qed.
End Sound.
