(** * ParserComplete2: the completeness of each parsing function, up to [Parse]. *)
From Verif Require Import Base Utf8 Lexer AST Parser Grammar ParserWp ParserSound ParserComplete.
Local Open Scope p_scope.

Ltac tw := match goal with H : terminal ?k ?l ?ts ?r, Hw : wf ?ts |- _ =>
   lazymatch goal with _ : wf r |- _ => fail | _ => idtac end;
   let a := fresh "Hwf" in let b := fresh "Hlen" in destruct (term_wf _ _ _ _ H eq_refl Hw) as [a b] end.
(** Use the completeness [L] of a part on the derivation [H]. *)
Ltac cs L H := repeat tw; let a := fresh "Hrun" in let b := fresh "Hwf" in let c := fresh "Hlen" in
  destruct (L _ _ _ H ltac:(assumption) ltac:(lia) ltac:(fol)) as (a & b & c).
Ltac rs := repeat tw; match goal with
  | |- pbind (must0 ?k) _ ?ts = _ =>
      match goal with H : terminal k _ ts _, Hw : wf ts |- _ =>
        let t := fresh "t" in let E1 := fresh "E" in let E2 := fresh "E" in
        destruct (run_must0 _ _ _ _ H eq_refl Hw) as (t & E1 & E2); eapply run_bind; [exact E1|]; cbv beta iota; rewrite ?E2 end
  | |- pbind (must1 ?k ?s) _ ?ts = _ =>
      match goal with H : terminal k _ ts _, Hw : wf ts |- _ =>
        let t := fresh "t" in let E1 := fresh "E" in
        destruct (run_must1 k s _ _ H eq_refl Hw) as (t & E1); eapply run_bind; [exact E1|]; cbv beta iota end
  | |- pbind (consume0 ?k) _ ?ts = _ =>
      match goal with H : terminal k _ ts _, Hw : wf ts |- _ =>
        let t := fresh "t" in let E1 := fresh "E" in let E2 := fresh "E" in
        destruct (run_consume0 _ _ _ _ H eq_refl Hw) as (t & E1 & E2); eapply run_bind; [exact E1|]; cbv beta iota; rewrite ?E2 end
  | |- pbind (skip1 ?k ?s) _ ?ts = _ =>
      match goal with H : terminal k (B s) ts _, Hw : wf ts |- _ =>
        eapply run_bind; [exact (run_skip1 _ _ _ _ H eq_refl Hw)|]; cbv beta iota end
  | |- pbind (skip1 ?k ?s) _ ?ts = _ =>
      eapply run_bind; [eapply (run_skip1_no [(k, B s)]); [assumption|fol|left; reflexivity]|]; cbv beta iota
  | |- pbind (peek1 ?k ?s) _ ?ts = _ =>
      match goal with H : terminal k (B s) ts _, Hw : wf ts |- _ =>
        eapply run_bind; [exact (run_peek1 _ _ _ _ H)|]; cbv beta iota end
  | |- pbind (peek1 ?k ?s) _ ?ts = _ =>
      eapply run_bind; [eapply (run_peek1_no [(k, B s)]); [assumption|fol|left; reflexivity]|]; cbv beta iota
  | |- pbind (need ?k ?s) _ ?ts = _ =>
      match goal with H : terminal k _ ts _, Hw : wf ts |- _ =>
        eapply run_bind; [exact (run_need k s _ _ H eq_refl Hw)|]; cbv beta iota end
  | |- pbind (pret _) _ _ = _ => eapply run_bind; [reflexivity|]; cbv beta iota
  | |- pbind _ _ ?ts = _ => eapply run_bind; [eassumption|]; cbv beta iota
  | |- pret _ _ = _ => reflexivity
  | |- skip1 ?k ?s ?ts = _ =>
      match goal with H : terminal k (B s) ts _, Hw : wf ts |- _ => exact (run_skip1 _ _ _ _ H eq_refl Hw) end
  | |- skip1 ?k ?s ?ts = _ => eapply (run_skip1_no [(k, B s)]); [assumption|fol|left; reflexivity]
  end.
Ltac fin := split; [|split; [repeat tw; assumption|repeat tw; lia]].

Section Complete.
Variable fok : bytes -> bool.
Variable lv : level.

(** Where no type can start, and where a list type is not closed, [parse_type] fails. *)
Lemma no_term k lit ts : (forall r, ~ terminal k lit ts r) -> nh [(k, lit)] ts.
Proof.
  intros H. destruct ts as [|[k' lit' l c] r]; [exact I|]. cbn. destruct (is1 k lit (mkTok k' lit' l c)) eqn:E; [|reflexivity]. apply is1_iff in E. cbn in E. destruct E; subst.
  exfalso. eapply H. constructor.
Qed.
Lemma type_stops n ts : wf ts -> (forall nm r', ~ name nm ts r') -> (forall r', ~ pun "[" ts r') -> exists e, parse_type (S n) ts = PErr e ts.
Proof.
  intros Hw N1 N2. cbn [parse_type]. destruct (wf_cons _ Hw) as (t & r & ->). unfold pbind at 1. rewrite (run_skip1_no _ _ _ _ Hw (no_term _ _ _ N2) (or_introl eq_refl)).
  cbv beta iota. cbv [must0 must pbind tok pfail]. destruct (is0 KName t) eqn:E; [exfalso; eapply N1, is0_term, E|]. eexists. reflexivity.
Qed.
Lemma list_stops n ts r1 t r : pun "[" ts r1 -> wf ts -> wf r -> parse_type n r1 = POk t r -> (forall r', ~ pun "]" r r') -> exists e, parse_type (S n) ts = PErr e r.
Proof.
  intros H Hw Hr E N. cbn [parse_type]. unfold pbind at 1. rewrite (run_skip1 _ _ _ _ H eq_refl Hw). cbv beta iota. rewrite E. destruct (wf_cons _ Hr) as (u & r' & ->).
  pose proof (no_term _ _ _ N) as Nh. cbv [must1 must pbind tok pfail]. rewrite (nh_in _ _ _ _ _ Nh (or_introl eq_refl)). eexists. reflexivity.
Qed.
Lemma parse_type_comp n : comp 1 n (parse_type n) (g_type lv) (pns ["!"]%string).
Proof.
  induction n as [[|n] IHs] using lt_wf_ind; intros ts a r H Hw Hn HF; [pose proof (wf_len _ Hw); lia|]. pose proof (IHs n ltac:(lia)) as IH.
  inversion H; subst; cbn [parse_type].
  - fin. repeat rs.
  - fin. repeat rs.
  - cs IH H1. fin. rs. rewrite Hrun. repeat rs.
  - cs IH H1. fin. rs. rewrite Hrun. repeat rs.
  - fin. rs. destruct n as [|n]; [repeat tw; pose proof (wf_len r ltac:(assumption)); lia|]. destruct (type_stops n r ltac:(repeat tw; assumption) ltac:(assumption) ltac:(assumption)) as (e & ->). reflexivity.
  - repeat tw. destruct n as [|n]; [pose proof (wf_len _ Hwf0); lia|]. destruct (IHs n ltac:(lia) r2 t r ltac:(assumption) ltac:(assumption) ltac:(lia) HF) as (Hrun & Hwr & Hlr).
    split; [|split; [assumption|lia]]. eapply run_bind; [eapply run_skip1; [eassumption|reflexivity|assumption]|]. cbv beta iota.
    destruct (list_stops n r1 r2 t r) as (e & ->); [assumption..|]. reflexivity.
Qed.

(** the test fails on the concrete next token *)
Ltac rno := eapply run_bind; [reflexivity|]; cbv beta iota.

Lemma consume_yes (p : token -> bool) k lit l c r : p (mkTok k lit l c) = true -> lastk k = false -> wf (mkTok k lit l c :: r) ->
  consume p (mkTok k lit l c :: r) = POk (Some (mkTok k lit l c)) r.
Proof. intros Hp Hk Hw. unfold consume, pbind, tok. rewrite Hp, adv by assumption. reflexivity. Qed.
Lemma must_yes (p : token -> bool) w k lit l c r : p (mkTok k lit l c) = true -> lastk k = false -> wf (mkTok k lit l c :: r) ->
  must p w (mkTok k lit l c :: r) = POk (mkTok k lit l c) r.
Proof. intros Hp Hk Hw. unfold must, pbind, tok. rewrite Hp, adv by assumption. reflexivity. Qed.
Lemma skip_no (p : token -> bool) t r : p t = false -> skip p (t :: r) = POk false (t :: r).
Proof. intros Hp. unfold skip, pbind, tok. rewrite Hp. reflexivity. Qed.
Lemma consume_no (p : token -> bool) t r : p t = false -> consume p (t :: r) = POk None (t :: r).
Proof. intros Hp. unfold consume, pbind, tok. rewrite Hp. reflexivity. Qed.
Lemma peek_is (p : token -> bool) t r b : p t = b -> peek p (t :: r) = POk b (t :: r).
Proof. intros Hp. unfold peek, pbind, tok. rewrite Hp. reflexivity. Qed.

Lemma parse_value_comp n const : comp 1 n (parse_value fok n) (g_value fok lv const) [].
Proof.
  induction n as [|n IH]; intros ts a r H Hw Hn HF; [pose proof (wf_len _ Hw); lia|].
  assert (Hof : comp 1 n (parse_object_field (parse_value fok n)) (g_ofield fok lv const) []).
  { intros ts' a' r' H' Hw' Hn' _. inversion H'; subst. cs IH H2. fin. unfold parse_object_field. repeat rs. }
  inversion H; subst; cbn [parse_value].
  - fin. repeat rs.
  - fin. inversion H0; subst. rno. rs. rewrite (atoi_complete _ _ _ H1 H2). reflexivity.
  - fin. inversion H0; subst. rno. rno. rs. rewrite H1. reflexivity.
  - fin. inversion H0; subst. do 3 rno. repeat rs.
  - fin. inversion H0; subst. do 4 rno. eapply run_bind; [apply consume_yes; [reflexivity|reflexivity|assumption]|]. reflexivity.
  - fin. inversion H0; subst. do 4 rno. eapply run_bind; [apply consume_yes; [reflexivity|reflexivity|assumption]|]. reflexivity.
  - fin. inversion H0; subst. do 5 rno. repeat rs.
  - fin. inversion H0; subst. do 4 rno.
    assert (Hne : forall s, n0 <> B s -> beqb n0 (B s) = false) by (intros s Hs; destruct (beqb_spec n0 (B s)); congruence).
    eapply run_bind; [apply consume_no; unfold isn; cbn [inb existsb tkind tlit kind_eqb andb]; rewrite !Hne by assumption; reflexivity|].
    cbv beta iota. eapply run_bind; [apply skip_no; unfold is1; cbn [tkind tlit kind_eqb andb]; rewrite !Hne by assumption; reflexivity|].
    cbv beta iota. repeat rs.
  - repeat tw. destruct (loop_until_comp n n (parse_value fok n) (g_value fok lv const) [] "]" r1 l r2 r IH) as (Hrun & ? & ?); try eassumption; try lia.
    { intros. split; fol. } { reflexivity. }
    fin. inversion H0; subst. do 7 rno. repeat rs.
  - repeat tw. destruct (loop_until_comp n n _ (g_ofield fok lv const) [] "}" r1 fs r2 r Hof) as (Hrun & ? & ?); try eassumption; try lia.
    { intros ? ? ? Hx. inversion Hx; subst. split; fol. } { reflexivity. }
    fin. inversion H0; subst. do 8 rno. repeat rs.
Qed.

Lemma parse_default_comp n : comp 0 n (parse_default fok n) (g_default fok lv) (pns ["="]%string).
Proof.
  intros ts a r H Hw Hn HF. unfold parse_default. inversion H; subst.
  - fin. repeat rs.
  - cs (parse_value_comp n true) H1. fin. repeat rs.
Qed.
Lemma parse_argument_comp n const : comp 1 n (parse_argument fok n) (g_arg fok lv const) [].
Proof.
  intros ts a r H Hw Hn HF. unfold parse_argument. inversion H; subst. cs (parse_value_comp n const) H2. fin. repeat rs.
Qed.
Lemma parse_arguments_comp n const : comp 0 n (parse_arguments fok n) (g_args fok lv const) (pns ["("]%string).
Proof.
  intros ts a r H Hw Hn HF. unfold parse_arguments. inversion H; subst.
  - fin. repeat rs.
  - repeat tw. destruct (loop_until_comp n n _ (g_arg fok lv const) [] ")" r1 a r2 r (parse_argument_comp n const)) as (Hrun & ? & ?); try eassumption; try lia.
    { intros ? ? ? Hx. inversion Hx; subst. split; fol. } { reflexivity. }
    fin. rs. exact Hrun.
Qed.
Lemma parse_directive_comp n const loc : comp 1 n (parse_directive fok n loc) (g_dir fok lv const loc) (pns ["("]%string).
Proof.
  intros ts a r H Hw Hn HF. unfold parse_directive. inversion H; subst. cs (parse_arguments_comp n const) H2. fin. repeat rs.
Qed.
Lemma parse_directives_comp n const loc : comp 0 n (parse_directives fok n loc) (g_dirs fok lv const loc) (pns ["@"; "("]%string).
Proof.
  intros ts a r H Hw Hn HF. unfold parse_directives.
  destruct (loop_while_comp n n _ _ _ "@" ts a r (parse_directive_comp n const loc)) as (Hrun & ? & ?); try eassumption; try fol.
  { intros ? ? ? Hx. inversion Hx; subst. split; [fol|eexists; eassumption]. }
  split; [exact Hrun|split; [assumption|lia]].
Qed.
Lemma run_named n ts t r : g_named lv ts t r -> wf ts -> (List.length ts <= n)%nat -> nh (pns ["!"]%string) r ->
  parse_type n ts = POk t r /\ named_only t = pret t /\ wf r /\ (List.length r + 1 <= List.length ts)%nat.
Proof.
  intros H Hw Hn HF. assert (Ht : g_type lv ts t r) by (inversion H; subst; econstructor; eassumption).
  cs (parse_type_comp n) Ht. split; [exact Hrun|]. split; [|split; assumption]. inversion H; subst; reflexivity.
Qed.
Lemma parse_type_condition_comp n : comp 1 n (parse_type_condition n) (g_cond lv) (pns ["!"]%string).
Proof.
  intros ts a r H Hw Hn HF. unfold parse_type_condition. inversion H; subst. repeat tw.
  destruct (run_named n _ _ _ H1) as (Hrun & Hnm & ? & ?); try assumption; try lia. fin. repeat rs. rewrite Hnm. reflexivity.
Qed.

Definition selset_comp (n : nat) (selset : bool -> P (list selection)) : Prop :=
  comp 1 n (selset false) (g_selset fok lv) [] /\ comp 0 n (selset true) (g_opt_selset fok lv) (pns ["{"]%string).

Lemma parse_selection_comp n selset : selset_comp n selset ->
  comp 1 n (parse_selection fok n selset) (g_sel fok lv) (pns ["("; "@"; "{"; ":"]%string).
Proof.
  intros [Hs Hos] ts a r H Hw Hn HF. unfold parse_selection. inversion H; subst.
  - assert (Hno : skip1 KPunct "..." ts = POk false ts).
    { inversion H0; subst; eapply (run_skip1_no [(KPunct, B "...")]); try assumption; try fol; left; reflexivity. }
    unfold parse_field. inversion H0; subst.
    + cs (parse_arguments_comp n false) H1. cs (parse_directives_comp n false LField) H2. cs Hos H3. fin. rs.
 rs. rs. rs. repeat rs.
    + cs (parse_arguments_comp n false) H1. cs (parse_directives_comp n false LField) H2. cs Hos H3. fin. rs. rs. rs.
      eapply run_bind; [repeat rs|]. cbv beta. repeat rs.
  - cs (parse_directives_comp n false LFragmentSpread) H3. fin. unfold parse_spread. rs.
    eapply run_bind; [inversion H1; subst; apply (peek_is _ _ _ true)|].
    { cbn [is0 kind_eqb tkind tlit andb]. destruct (beqb_spec n0 (B "on")); [congruence|reflexivity]. }
    cbv beta iota. repeat rs.
  - repeat tw.
    assert (Hpk : peek (fun t => is0 KName t && negb (beqb (tlit t) (B "on"))) r1 = POk false r1).
    { inversion H1; subst.
      - inversion H2; subst.
        + inversion H3; subst. match goal with H : terminal _ _ r3 _ |- _ => inversion H; subst end. reflexivity.
        + match goal with H : g_dir _ _ _ _ _ _ _ |- _ => inversion H; subst end.
          match goal with H : terminal _ (B "@") r2 _ |- _ => inversion H; subst end. reflexivity.
      - match goal with H : g_cond _ _ _ _ |- _ => inversion H; subst end.
        match goal with H : terminal _ (B "on") r1 _ |- _ => inversion H; subst end. reflexivity. }
    unfold parse_inline. inversion H1; subst.
    + cs (parse_directives_comp n false LInlineFragment) H2. cs Hs H3. fin. rs. rs. rs. eapply run_bind; [reflexivity|]. repeat rs.
    + match goal with H : g_cond _ _ _ _ |- _ => cs (parse_type_condition_comp n) H end.
      cs (parse_directives_comp n false LInlineFragment) H2. cs Hs H3. fin. rs. rs.
      match goal with H : g_cond _ _ _ _ |- _ => inversion H; subst end.
      rs. eapply run_bind; [repeat rs|]. repeat rs.
Qed.

(** ** "p.peek1(c) || p.peek0(EOF)" *)
Lemma at_close_yes c ts r : pun c ts r -> at_close c ts = POk true ts.
Proof. intros H. unfold at_close. eapply run_bind; [exact (run_peek1 _ _ _ _ H)|]. reflexivity. Qed.
Lemma at_close_no c ts : wf ts -> nh [(KPunct, B c)] ts -> nk KEOF ts -> at_close c ts = POk false ts.
Proof.
  intros Hw Hn Hk. unfold at_close. eapply run_bind; [eapply run_peek1_no; [assumption|exact Hn|left; reflexivity]|]. cbv beta iota.
  destruct (wf_cons _ Hw) as (t & r & ->). apply peek_is. unfold is0. cbn in Hk.
  destruct (kind_eqb (tkind t) KEOF) eqn:He; [apply kind_eqb_true in He; congruence|reflexivity].
Qed.
Lemma nk_desc ts d r n r' : g_desc ts d r -> name n r r' -> nk KEOF ts.
Proof. intros H H'. inversion H; subst; (eapply nk_term; [eassumption|discriminate]). Qed.
Lemma nk_sel ts a r : g_sel fok lv ts a r -> nk KEOF ts.
Proof.
  intros H. inversion H; subst; try (eapply nk_term; [eassumption|discriminate]).
  match goal with H : g_alias _ _ _ |- _ => inversion H; subst end; (eapply nk_term; [eassumption|discriminate]).
Qed.
Lemma nk_ivdef loc ts a r : g_ivdef fok lv loc ts a r -> nk KEOF ts.
Proof. intros H. inversion H; subst. eapply nk_desc; eassumption. Qed.
Lemma nk_optype ts a r : g_optype lv ts a r -> nk KEOF ts.
Proof.
  intros H. inversion H; subst. match goal with H : g_opkind _ _ _ |- _ => inversion H; subst end; (eapply nk_term; [eassumption|discriminate]).
Qed.

Lemma parse_selset_comp n : selset_comp n (parse_selset fok n).
Proof.
  induction n as [|n IH].
  { split; intros ts a r H Hw Hn; pose proof (wf_len _ Hw); lia. }
  assert (Hmain : forall o ts a r, g_selset fok lv ts a r -> wf ts -> (List.length ts <= S n)%nat ->
    parse_selset fok (S n) o ts = POk a r /\ wf r /\ (List.length r + 1 <= List.length ts)%nat).
  { intros o ts a r H Hw Hn. inversion H; subst. repeat tw.
    destruct (do_loop_comp n n _ _ _ (at_close "}") r1 a r2 (parse_selection_comp n _ IH)) as (Hrun & ? & ?); try assumption; try lia.
    - intros; fol.
    - intros ts' a' r' Hg Hw'. apply at_close_no; [assumption|fol|eapply nk_sel; eassumption].
    - fol.
    - intros _. eapply at_close_yes; eassumption.
    - fin. cbn [parse_selset]. rs. repeat rs. }
  split.
  - intros ts a r H Hw Hn _. exact (Hmain false ts a r H Hw Hn).
  - intros ts a r H Hw Hn HF. inversion H; subst.
    + fin. cbn [parse_selset]. repeat rs.
    + destruct (Hmain true ts a r H0 Hw Hn) as (? & ? & ?). split; [assumption|split; [assumption|lia]].
Qed.

Lemma parse_vardef_comp n : comp 1 n (parse_vardef fok n) (g_vardef fok lv) (pns ["!"; "="]%string).
Proof.
  intros ts a r H Hw Hn HF. unfold parse_vardef. inversion H; subst.
  cs (parse_type_comp n) H3. cs (parse_default_comp n) H4. fin. repeat rs.
Qed.
Lemma parse_vardefs_comp n : comp 0 n (parse_vardefs fok n) (g_vardefs fok lv) (pns ["("]%string).
Proof.
  intros ts a r H Hw Hn HF. unfold parse_vardefs. inversion H; subst.
  - fin. repeat rs.
  - repeat tw. destruct H1 as [Hm Hne].
    destruct (do_loop_comp n n _ _ _ (peek1 KPunct ")") r1 a r2 (parse_vardef_comp n)) as (Hrun & ? & ?); try assumption; try lia.
    + intros ? ? ? Hx. inversion Hx; subst. fol.
    + intros ts' a' r' Hx Hw'. inversion Hx; subst. eapply (run_peek1_no [(KPunct, B ")")]); [assumption|fol|left; reflexivity].
    + fol.
    + intros _. eapply run_peek1. eassumption.
    + fin. repeat rs.
Qed.
Lemma parse_optype_comp n : comp 1 n parse_optype g_opkind [].
Proof.
  intros ts a r H Hw Hn HF. unfold parse_optype, mustn.
  inversion H; subst; fin; match goal with H : terminal _ _ _ _ |- _ => inversion H; subst end;
    (eapply run_bind; [apply must_yes; [reflexivity|reflexivity|assumption]|]); reflexivity.
Qed.

Lemma op_location_eq k : op_location k = operation_location k. Proof. destruct k; reflexivity. Qed.

Lemma parse_operation_comp n : forall ts o r, g_op fok lv ts o r -> wf ts -> (List.length ts <= n)%nat ->
  parse_operation fok n (match ts with t :: _ => beqb (tlit t) (B "{") | [] => false end) ts = POk (DOp o) r /\ wf r
  /\ (List.length r + 1 <= List.length ts)%nat.
Proof.
  intros ts o r H Hw Hn. inversion H; subst.
  - cs (proj1 (parse_selset_comp n)) H0. fin. inversion H0; subst. match goal with H : pun "{" _ _ |- _ => inversion H; subst end.
    unfold parse_operation. cbn [tlit]. rewrite beqb_refl. repeat rs.
  - cs (parse_optype_comp n) H0.
    assert (Hsh : match ts with t :: _ => beqb (tlit t) (B "{") | [] => false end = false).
    { inversion H0; subst; match goal with H : kw _ _ _ |- _ => inversion H; subst end; reflexivity. }
    rewrite Hsh. unfold parse_operation. inversion H1; subst.
    + cs (parse_vardefs_comp n) H2. cs (parse_directives_comp n false (operation_location k)) H3. cs (proj1 (parse_selset_comp n)) H4.
      fin. rs. eapply run_bind; [apply run_consume0_no; [assumption|]|cbv beta iota; rewrite op_location_eq; repeat rs].
      inversion H2; subst; [|eapply nk_term; [eassumption|discriminate]]. inversion H3; subst.
      * inversion H4; subst. eapply nk_term; [eassumption|discriminate].
      * match goal with H : g_dir _ _ _ _ _ _ _ |- _ => inversion H; subst end. eapply nk_term; [eassumption|discriminate].
    + cs (parse_vardefs_comp n) H2. cs (parse_directives_comp n false (operation_location k)) H3. cs (proj1 (parse_selset_comp n)) H4.
      fin. rs. rs. rewrite op_location_eq. repeat rs.
Qed.

Lemma parse_fragment_comp n : forall ts o r, g_frag fok lv ts o r -> wf ts -> (List.length ts <= n)%nat ->
  parse_fragment fok n ts = POk (Some (DFrag o)) r /\ wf r /\ (List.length r + 1 <= List.length ts)%nat.
Proof.
  intros ts o r H Hw Hn. inversion H; subst. cs (parse_type_condition_comp n) H3. cs (parse_directives_comp n false LFragmentDefinition) H4.
  cs (proj1 (parse_selset_comp n)) H5. fin. unfold parse_fragment. rs. cbn [negb]. rs.
  destruct (beqb_spec n0 (B "on")); [congruence|]. repeat rs.
Qed.

Lemma parse_desc_comp n : forall ts a r m r', g_desc ts a r -> name m r r' -> wf ts -> (List.length ts <= n)%nat ->
  parse_desc ts = POk a r /\ wf r /\ (List.length r <= List.length ts)%nat.
Proof.
  intros ts a r m r' H Hnm Hw Hn. unfold parse_desc. inversion H; subst.
  - split; [|split; [assumption|lia]]. eapply run_bind; [apply run_consume0_no; [assumption|eapply nk_term; [eassumption|discriminate]]|]. reflexivity.
  - fin. repeat rs.
Qed.
Ltac cd H := repeat tw; match type of H with g_desc ?ts ?a ?r => match goal with Hm : terminal KName _ r _ |- _ =>
  let a := fresh "Hrun" in let b := fresh "Hwf" in let c := fresh "Hlen" in
  destruct (parse_desc_comp _ _ _ _ _ _ H Hm ltac:(assumption) ltac:(eassumption)) as (a & b & c) end end.

Lemma parse_ivdef_comp n loc : comp 1 n (parse_ivdef fok n loc) (g_ivdef fok lv loc) (pns ["!"; "="; "@"; "("]%string).
Proof.
  intros ts a r H Hw Hn HF. unfold parse_ivdef. inversion H; subst. cd H0.
  cs (parse_type_comp n) H3. cs (parse_default_comp n) H4. cs (parse_directives_comp n true loc) H5. fin. repeat rs.
Qed.
Lemma parse_argdefs_comp n : comp 0 n (parse_argdefs fok n) (g_argdefs fok lv) (pns ["("]%string).
Proof.
  intros ts a r H Hw Hn HF. unfold parse_argdefs. inversion H; subst.
  - fin. repeat rs.
  - repeat tw. destruct H1 as [Hm Hne].
    destruct (do_loop_comp n n _ _ _ (at_close ")") r1 a r2 (parse_ivdef_comp n LArgumentDefinition)) as (Hrun & ? & ?); try assumption; try lia.
    + intros; fol.
    + intros ts' a' r' Hg Hw'. apply at_close_no; [assumption|fol|eapply nk_ivdef; eassumption].
    + fol.
    + intros _. eapply at_close_yes; eassumption.
    + fin. repeat rs.
Qed.
Lemma parse_fielddef_comp n : comp 1 n (parse_fielddef fok n) (g_fielddef fok lv) (pns ["!"; "@"; "("]%string).
Proof.
  intros ts a r H Hw Hn HF. unfold parse_fielddef. inversion H; subst. cd H0.
  cs (parse_argdefs_comp n) H2. cs (parse_type_comp n) H4. cs (parse_directives_comp n true LFieldDefinition) H5. fin. repeat rs.
Qed.
Lemma parse_enumval_comp n : comp 1 n (parse_enumval fok n) (g_enumval fok lv) (pns ["@"; "("]%string).
Proof.
  intros ts a r H Hw Hn HF. unfold parse_enumval. inversion H; subst. cd H0.
  cs (parse_directives_comp n true LEnumValue) H5. fin. rs. rs.
  destruct (inb n0 _) eqn:Hin; [|repeat rs].
  apply inb_In in Hin. cbn [In] in Hin. exfalso. intuition congruence.
Qed.
Lemma block_comp {A} n (body : P A) g F : comp 1 n body g F -> (forall ts a r, g ts a r -> nh F ts /\ nh [(KPunct, B "}")] ts) ->
  hd_in F (mkTok KPunct (B "}") 0 0) = false -> forall ts a r, g_block g ts a r -> wf ts -> (List.length ts <= n)%nat ->
  (a = [] -> nh (pns ["{"]%string) r) ->
  (b <- skip1 KPunct "{" ;; if b then do_loop n body (skip1 KPunct "}") else pret []) ts = POk a r /\ wf r /\ (List.length r + 0 <= List.length ts)%nat.
Proof.
  intros Hb Hf HFc ts a r H Hw Hn HF. inversion H; subst.
  - specialize (HF eq_refl). fin. repeat rs.
  - repeat tw. destruct H1 as [Hm Hne].
    destruct (do_loop_close_comp n n body g F "}" r1 a r2 r Hb Hf HFc Hm Hne H2) as (Hrun & ? & ?); try assumption; try lia.
    fin. rs. exact Hrun.
Qed.

Lemma fielddefs_comp n : forall ts a r, g_block (g_fielddef fok lv) ts a r -> wf ts -> (List.length ts <= n)%nat ->
  (a = [] -> nh (pns ["{"]%string) r) -> parse_fielddefs fok n ts = POk a r /\ wf r /\ (List.length r + 0 <= List.length ts)%nat.
Proof. apply (block_comp n _ _ _ (parse_fielddef_comp n)); [intros; split; fol|reflexivity]. Qed.
Lemma enumvals_comp n : forall ts a r, g_block (g_enumval fok lv) ts a r -> wf ts -> (List.length ts <= n)%nat ->
  (a = [] -> nh (pns ["{"]%string) r) -> parse_enumvals fok n ts = POk a r /\ wf r /\ (List.length r + 0 <= List.length ts)%nat.
Proof. apply (block_comp n _ _ _ (parse_enumval_comp n)); [intros; split; fol|reflexivity]. Qed.
Lemma inputs_comp n : forall ts a r, g_block (g_ivdef fok lv LInputFieldDefinition) ts a r -> wf ts -> (List.length ts <= n)%nat ->
  (a = [] -> nh (pns ["{"]%string) r) -> parse_inputs fok n ts = POk a r /\ wf r /\ (List.length r + 0 <= List.length ts)%nat.
Proof. apply (block_comp n _ _ _ (parse_ivdef_comp n LInputFieldDefinition)); [intros; split; fol|reflexivity]. Qed.

Lemma member_comp n : comp 1 n (parse_type n) (g_member lv) (pns ["!"]%string).
Proof.
  intros ts a r H. assert (Ht : g_type lv ts a r) by (inversion H; subst; [econstructor; eassumption|assumption]).
  exact (parse_type_comp n ts a r Ht).
Qed.
Lemma nh_member F ts a r : g_member lv ts a r -> onlyP F -> free F "[" -> nh F ts.
Proof. intros H H1 H2. inversion H; subst; [eapply nh_nm; eassumption|eapply nh_type; eassumption]. Qed.
Lemma nh_sep {A} s (g : G A) F ts l r : (forall ts a r, g ts a r -> nh F ts) -> sep1 s g ts l r -> nh F ts.
Proof. intros H Hs. inversion Hs; subst; eapply H; eassumption. Qed.
Lemma run_maybe s ts r : wf ts -> maybe s ts r -> nh [(KPunct, B s)] r ->
  exists b, skip1 KPunct s ts = POk b r /\ wf r /\ (List.length r <= List.length ts)%nat.
Proof.
  intros Hw [->|H] Hn.
  - exists false. split; [eapply run_skip1_no; [assumption|exact Hn|left; reflexivity]|split; [assumption|lia]].
  - repeat tw. exists true. split; [apply run_skip1; [assumption|reflexivity|assumption]|split; [assumption|lia]].
Qed.

Definition after_impl := pns ["&"; "!"]%string ++ [(KName, B "implements")].
Lemma parse_implements_comp n : comp 0 n (parse_implements n) (g_implements lv) after_impl.
Proof.
  intros ts a r H Hw Hn HF. unfold after_impl in HF. unfold parse_implements. inversion H; subst.
  - fin. assert (nh [(KName, B "implements")] r) by (eapply nh_sub; [exact HF|]; intros x [<-|[]]; cbn; auto). repeat rs.
  - repeat tw.
    assert (Hm : nh [(KPunct, B "&")] r2) by (eapply nh_sep; [|eassumption]; intros; eapply nh_member; [eassumption|side|reflexivity]).
    destruct (run_maybe _ _ _ Hwf H1 Hm) as (b & Hb & ? & ?).
    destruct (do_loop_sep_comp n n _ _ _ "&" r2 a r (member_comp n)) as (Hrun & ? & ?); try assumption; try lia; try reflexivity.
    { eapply nh_sub; [exact HF|]. intros x [<-|[]]; cbn; auto. }
    { eapply nh_sub; [exact HF|]. intros x [<-|[]]; cbn; auto. }
    fin. rs. rs. exact Hrun.
Qed.
Lemma parse_members_comp n : comp 0 n (parse_members n) (g_members lv) (pns ["="; "|"; "!"]%string).
Proof.
  intros ts a r H Hw Hn HF. unfold parse_members. inversion H; subst.
  - fin. repeat rs.
  - repeat tw.
    assert (Hm : nh [(KPunct, B "|")] r2) by (eapply nh_sep; [|eassumption]; intros; eapply nh_member; [eassumption|side|reflexivity]).
    destruct (run_maybe _ _ _ Hwf H1 Hm) as (b & Hb & ? & ?).
    destruct (do_loop_sep_comp n n _ _ _ "|" r2 a r (member_comp n)) as (Hrun & ? & ?); try assumption; try lia; try reflexivity; try fol.
    fin. rs. rs. exact Hrun.
Qed.

(** What cannot follow a definition, whatever it is. *)
Definition after_def := pns ["!"; "="; "@"; "("; "&"; "|"]%string ++ [(KName, B "implements")].
Lemma after_sub F r : nh after_def r -> (forall x, In x F -> In x after_def) -> nh F r.
Proof. apply nh_sub. Qed.
Ltac sub H := eapply nh_sub; [exact H|]; unfold after_def, after_impl, pns; cbn [app map In]; intros ? ?; intuition auto; fail.

Lemma parse_typebody_comp n desc : forall ts d r, g_tydef fok lv desc ts d r -> wf ts -> (List.length ts <= n)%nat -> nh after_def r ->
  (block_omitted (DType d) -> nh (pns ["{"]%string) r) ->
  parse_typebody fok n desc ts = POk d r /\ wf r /\ (List.length r + 1 <= List.length ts)%nat.
Proof.
  intros ts d r H Hw Hn HF HB. unfold parse_typebody. unfold block_omitted in HB.
  assert (Hd : nh (pns ["@"; "("]%string) r) by (sub HF). assert (Hi : nh after_impl r) by (sub HF).
  assert (Hm : nh (pns ["="; "|"; "!"]%string) r) by (sub HF).
  inversion H; subst; cbn [t_kind t_fields t_values t_inputs] in HB.
  - cs (parse_directives_comp n true LScalar) H2. fin. rs. change (kind_of_kw (B "scalar")) with (Some KScalar). cbv iota. repeat rs.
  - assert (Hi4 : nh after_impl r4) by (eapply nh_block; [eassumption|reflexivity|assumption]).
    assert (Hd4 : nh (pns ["@"; "("]%string) r4) by (eapply nh_block; [eassumption|reflexivity|assumption]).
    cs (parse_implements_comp n) H2. cs (parse_directives_comp n true LObject) H3.
    destruct (fielddefs_comp n _ _ _ H4) as (Hrun1 & ? & ?); try assumption; try lia.
    fin. rs. change (kind_of_kw (B "type")) with (Some KObject). cbv iota. repeat rs.
  - assert (Hd4 : nh (pns ["@"; "("]%string) r4) by (eapply nh_block; [eassumption|reflexivity|assumption]).
    cs (parse_directives_comp n true LInterface) H2.
    destruct (fielddefs_comp n _ _ _ H3) as (Hrun1 & ? & ?); try assumption; try lia.
    fin. rs. change (kind_of_kw (B "interface")) with (Some KInterface). cbv iota. repeat rs.
  - assert (Hd4 : nh (pns ["@"; "("]%string) r4) by (eapply nh_members; [eassumption|reflexivity|assumption]).
    cs (parse_directives_comp n true LUnion) H2. cs (parse_members_comp n) H3.
    fin. rs. change (kind_of_kw (B "union")) with (Some KUnion). cbv iota. repeat rs.
  - assert (Hd4 : nh (pns ["@"; "("]%string) r4) by (eapply nh_block; [eassumption|reflexivity|assumption]).
    cs (parse_directives_comp n true LEnum) H2.
    destruct (enumvals_comp n _ _ _ H3) as (Hrun1 & ? & ?); try assumption; try lia.
    fin. rs. change (kind_of_kw (B "enum")) with (Some KEnum). cbv iota. repeat rs.
  - assert (Hd4 : nh (pns ["@"; "("]%string) r4) by (eapply nh_block; [eassumption|reflexivity|assumption]).
    cs (parse_directives_comp n true LInputObject) H2.
    destruct (inputs_comp n _ _ _ H3) as (Hrun1 & ? & ?); try assumption; try lia.
    fin. rs. change (kind_of_kw (B "input")) with (Some KInputObject). cbv iota. repeat rs.
Qed.

Lemma parse_optypedef_comp n : comp 1 n (parse_optypedef n) (g_optype lv) (pns ["!"]%string).
Proof.
  intros ts a r H Hw Hn HF. unfold parse_optypedef. inversion H; subst. cs (parse_optype_comp n) H0. repeat tw.
  destruct (run_named n _ _ _ H2) as (Hrun1 & Hnm & ? & ?); try assumption; try lia. fin. rs. rs. rs. rewrite Hnm. repeat rs.
Qed.
Lemma parse_optypedefs_comp n ts r1 l r2 r : pun "{" ts r1 -> many1 (g_optype lv) r1 l r2 -> pun "}" r2 r -> wf ts -> (List.length ts <= n)%nat ->
  parse_optypedefs n ts = POk l r /\ wf r /\ (List.length r + 1 <= List.length ts)%nat.
Proof.
  intros H1 [Hm Hne] H2 Hw Hn. repeat tw. unfold parse_optypedefs.
  destruct (do_loop_comp n n _ _ _ (at_close "}") r1 l r2 (parse_optypedef_comp n)) as (Hrun & ? & ?); try assumption; try lia.
  - intros; fol.
  - intros ts' a' r' Hg Hw'. apply at_close_no; [assumption|fol|eapply nk_optype; eassumption].
  - fol.
  - intros _. eapply at_close_yes; eassumption.
  - fin. repeat rs.
Qed.
Lemma parse_schemadef_comp n : comp 1 n (parse_schemadef fok n) (g_schema fok lv) [].
Proof.
  intros ts a r H Hw Hn HF. unfold parse_schemadef. inversion H; subst.
  cs (parse_directives_comp n true LSchema) H1. destruct (parse_optypedefs_comp n _ _ _ _ _ H2 H3 H4) as (Hrun1 & ? & ?); try assumption; try lia.
  fin. repeat rs.
Qed.
Lemma parse_schemaext_comp n : forall ts d r, g_schemaext fok lv ts d r -> wf ts -> (List.length ts <= n)%nat -> nh after_def r ->
  (block_omitted (XSchema d) -> nh (pns ["{"]%string) r) ->
  parse_schemaext fok n ts = POk d r /\ wf r /\ (List.length r + 1 <= List.length ts)%nat.
Proof.
  intros ts d r H Hw Hn HF HB. assert (Hd : nh (pns ["@"; "("]%string) r) by (sub HF). unfold parse_schemaext. inversion H; subst. cbn [block_omitted s_ops] in HB.
  assert (Hd4 : nh (pns ["@"; "("]%string) r2) by (eapply nh_block; [eassumption|reflexivity|assumption]).
  cs (parse_directives_comp n true LSchema) H1. inversion H2; subst.
  - specialize (HB eq_refl). fin. rs. rs. rs. rs. destruct ds; [|reflexivity]. destruct H3; congruence.
  - destruct (parse_optypedefs_comp n _ _ _ _ _ H4 H5 H6) as (Hrun1 & ? & ?); try assumption; try lia.
    fin. rs. rs. rs. rs. destruct H5 as [_ Hne]. destruct ds, ops; try congruence; reflexivity.
Qed.

Lemma parse_dirloc_comp n : comp 1 n parse_dirloc (fun ts l r => exists nm, g_dirloc lv ts nm r /\ l = location_by_name nm) [].
Proof.
  intros ts a r (nm & H & ->) Hw Hn HF. inversion H; subst. fin. unfold parse_dirloc, mustn.
  match goal with H : name _ _ _ |- _ => inversion H; subst end. rewrite must_yes; [reflexivity| |reflexivity|assumption].
  unfold isn. cbn [tkind tlit kind_eqb andb]. apply inb_In. assumption.
Qed.
Lemma sep1_image {A C} s (g : G A) (f : A -> C) ts l r : sep1 s g ts l r -> sep1 s (fun ts c r => exists a, g ts a r /\ c = f a) ts (map f l) r.
Proof. induction 1; cbn [map]; [eapply sep_one; eauto|eapply sep_more; eauto]. Qed.
Lemma parse_dirlocs_comp n ts r1 ns l r : maybe "|" ts r1 -> sep1 "|" (g_dirloc lv) r1 ns r -> locations_denote ns l ->
  wf ts -> (List.length ts <= n)%nat -> nh (pns ["|"]%string) r ->
  parse_dirlocs n ts = POk l r /\ wf r /\ (List.length r + 1 <= List.length ts)%nat.
Proof.
  intros Hm Hs Hl Hw Hn HF.
  assert (Hnh : nh [(KPunct, B "|")] r1).
  { eapply nh_sep; [|eassumption]. intros ? ? ? Hx. inversion Hx; subst. fol. }
  destruct (run_maybe _ _ _ Hw Hm Hnh) as (b & Hb & ? & ?).
  destruct (do_loop_sep_comp n n _ _ _ "|" r1 (map location_by_name ns) r (parse_dirloc_comp n)) as (Hrun & ? & ?); try reflexivity; try assumption; try lia; try fol.
  { apply sep1_image. exact Hs. }
  unfold parse_dirlocs. fin. rs. rs. unfold pret. f_equal. eapply locations_unique; [|exact Hl].
  apply locations_fold. eapply sep1_Forall; [|exact Hs]. intros ? ? ? Hx. inversion Hx; subst. assumption.
Qed.
Lemma parse_dirdef_comp n desc : comp 1 n (parse_dirdef fok n desc) (g_dirdef fok lv desc) (pns ["|"]%string).
Proof.
  intros ts a r H Hw Hn HF. unfold parse_dirdef. inversion H; subst. cs (parse_argdefs_comp n) H3. repeat tw.
  destruct (parse_dirlocs_comp n _ _ _ _ _ H5 H6 H7) as (Hrun1 & ? & ?); try assumption; try lia.
  fin. rs. cbn [negb]. repeat rs.
Qed.


Lemma isn_kw s ls l c : isn KName ls (mkTok KName (B s) l c) = inb (B s) ls. Proof. reflexivity. Qed.
Lemma nn_desc ts d r n r' : g_desc ts d r -> name n r r' -> exists t r0, ts = t :: r0 /\ (tkind t = KString \/ terminal KName n ts r').
Proof.
  intros H H'. inversion H; subst; inversion H'; subst; [|inversion H0; subst]; eexists; eexists; (split; [reflexivity|]);
    [right; assumption|left; reflexivity].
Qed.

Lemma parse_tsdef_type n d ts t r : g_tydef fok lv d ts t r -> wf ts -> (List.length ts <= n)%nat -> nh after_def r ->
  (block_omitted (DType t) -> nh (pns ["{"]%string) r) -> parse_tsdef fok n d ts = POk (DType t) r /\ wf r /\ (List.length r + 1 <= List.length ts)%nat.
Proof.
  intros H Hw Hn HF HB. destruct (parse_typebody_comp n d ts t r H Hw Hn HF HB) as (Hrun & Hwr & Hl). split; [|split; assumption].
  unfold parse_tsdef. inversion H; subst; match goal with H : kw _ ts _ |- _ => inversion H; subst end; rno; rno;
    (eapply run_bind; [apply (peek_is _ _ _ true); reflexivity|]); cbv beta iota; repeat rs.
Qed.

Lemma parse_tsdef_schema n d ts t r : g_schema fok lv ts t r -> wf ts -> (List.length ts <= n)%nat ->
  parse_tsdef fok n d ts = POk (DSchema t) r /\ wf r /\ (List.length r + 1 <= List.length ts)%nat.
Proof.
  intros H Hw Hn. cs (parse_schemadef_comp n) H. fin. unfold parse_tsdef. inversion H; subst. repeat rs.
Qed.
Lemma parse_tsdef_dir n d ts t r : g_dirdef fok lv d ts t r -> wf ts -> (List.length ts <= n)%nat -> nh after_def r ->
  parse_tsdef fok n d ts = POk (DDir t) r /\ wf r /\ (List.length r + 1 <= List.length ts)%nat.
Proof.
  intros H Hw Hn HF. assert (nh (pns ["|"]%string) r) by (sub HF). cs (parse_dirdef_comp n d) H. fin. unfold parse_tsdef. inversion H; subst. repeat rs.
Qed.
Lemma parse_body_ts n ts d r1 s r' b r : g_desc ts d r1 -> kw s r1 r' -> In s (tsdef_kws d) -> wf ts ->
  parse_tsdef fok n d r1 = POk b r -> parse_body fok n ts = POk (Some b) r.
Proof.
  intros Hd Hk Hin Hw Hrun. unfold parse_body. inversion Hk; subst. inversion Hd; subst.
  - eapply run_bind; [reflexivity|]. cbv beta zeta.
    assert (Hpk : peekn KName (tsdef_kws []) (mkTok KName (B s) l c :: r') = POk true (mkTok KName (B s) l c :: r')).
    { apply peek_is. unfold isn. cbn [tkind tlit kind_eqb andb]. apply inb_In. apply in_map. exact Hin. }
    rewrite isn_kw. unfold is1. cbn [tkind tlit kind_eqb andb]. rewrite orb_false_r.
    replace (inb (B s) [B "query"; B "mutation"; B "subscription"]) with false.
    2:{ cbn [tsdef_kws type_kws app In] in Hin. repeat (destruct Hin as [<-|Hin]; [reflexivity|]). destruct Hin. }
    replace (beqb (B s) (B "fragment")) with false.
    2:{ cbn [tsdef_kws type_kws app In] in Hin. repeat (destruct Hin as [<-|Hin]; [reflexivity|]). destruct Hin. }
    replace (beqb (B s) (B "extend")) with false.
    2:{ cbn [tsdef_kws type_kws app In] in Hin. repeat (destruct Hin as [<-|Hin]; [reflexivity|]). destruct Hin. }
    cbn [andb orb]. eapply run_bind; [reflexivity|]. eapply run_bind; [exact Hpk|]. cbv beta iota. eapply run_bind; [exact Hrun|]. reflexivity.
  - match goal with H : terminal KString _ _ _ |- _ => inversion H; subst end.
    eapply run_bind; [reflexivity|]. cbv beta zeta. cbn [isn is1 tkind tlit kind_eqb andb orb].
    assert (Hpk : peekn KName (tsdef_kws d) (mkTok KName (B s) l c :: r') = POk true (mkTok KName (B s) l c :: r')).
    { apply peek_is. unfold isn. cbn [tkind tlit kind_eqb andb]. apply inb_In. apply in_map. exact Hin. }
    eapply run_bind; [unfold parse_desc; eapply run_bind; [apply consume_yes; [reflexivity|reflexivity|assumption]|reflexivity]|].
    eapply run_bind; [exact Hpk|]. cbv beta iota. eapply run_bind; [exact Hrun|]. reflexivity.
Qed.

Lemma parse_body_ext n ts r1 b r : kw "extend" ts r1 -> parse_tsext fok n ts = POk b r -> parse_body fok n ts = POk (Some b) r.
Proof.
  intros Hk Hrun. inversion Hk; subst. unfold parse_body. eapply run_bind; [reflexivity|]. cbv beta zeta.
  match goal with |- (if ?x then _ else _) _ = _ => change x with false end. cbv iota.
  match goal with |- (if ?x then _ else _) _ = _ => change x with false end. cbv iota.
  match goal with |- (if ?x then _ else _) _ = _ => change x with true end. cbv iota.
  eapply run_bind; [exact Hrun|]. reflexivity.
Qed.

(** the first token of a body *)
Inductive starts : list token -> Prop :=
| st_brace ts r : pun "{" ts r -> starts ts
| st_kw s ts r : kw s ts r -> In s ["query"; "mutation"; "subscription"; "fragment"; "schema"; "directive"; "extend";
    "scalar"; "type"; "interface"; "union"; "enum"; "input"]%string -> starts ts
| st_string lit ts r : terminal KString lit ts r -> starts ts.
Lemma tydef_kw d ts t r : g_tydef fok lv d ts t r -> exists s r', kw s ts r' /\ In s type_kws.
Proof. intros H. inversion H; subst; (eexists; eexists; split; [eassumption|cbn; auto 10]). Qed.
Lemma body_starts ts b r : g_body fok lv ts b r -> starts ts.
Proof.
  intros H. inversion H; subst.
  - match goal with H : g_op _ _ _ _ _ |- _ => inversion H; subst end.
    + match goal with H : g_selset _ _ _ _ _ |- _ => inversion H; subst end. eapply st_brace; eassumption.
    + match goal with H : g_opkind _ _ _ |- _ => inversion H; subst end; (eapply st_kw; [eassumption|cbn; auto 20]).
  - match goal with H : g_frag _ _ _ _ _ |- _ => inversion H; subst end. eapply st_kw; [eassumption|cbn; auto 20].
  - match goal with H : g_schema _ _ _ _ _ |- _ => inversion H; subst end. eapply st_kw; [eassumption|cbn; auto 20].
  - eapply st_string; eassumption.
  - match goal with H : g_desc _ _ _ |- _ => inversion H; subst end; [|eapply st_string; eassumption].
    match goal with H : g_tydef _ _ _ _ _ _ |- _ => destruct (tydef_kw _ _ _ _ H) as (s & r' & Hk & Hin) end.
    eapply st_kw; [exact Hk|]. cbn in Hin |- *. intuition auto 20.
  - match goal with H : g_desc _ _ _ |- _ => inversion H; subst end; [|eapply st_string; eassumption].
    match goal with H : g_dirdef _ _ _ _ _ _ |- _ => inversion H; subst end. eapply st_kw; [eassumption|cbn; auto 20].
  - eapply st_kw; [eassumption|cbn; auto 20].
  - eapply st_kw; [eassumption|cbn; auto 20].
Qed.
Lemma starts_after ts : starts ts -> nh after_def ts /\ nk KIllegal ts /\ nk KEOF ts.
Proof.
  intros H. inversion H; subst.
  - inversion H0; subst. repeat split; discriminate.
  - inversion H0; subst. cbn [In] in H1. split; [|split; discriminate].
    repeat (destruct H1 as [<-|H1]; [reflexivity|]). destruct H1.
  - inversion H0; subst. repeat split; discriminate.
Qed.

Lemma parse_body_comp n : forall ts b r, g_body fok lv ts b r -> wf ts -> (List.length ts <= n)%nat -> nh after_def r ->
  (block_omitted b -> nh (pns ["{"]%string) r) ->
  parse_body fok n ts = POk (Some b) r /\ wf r /\ (List.length r + 1 <= List.length ts)%nat.
Proof.
  intros ts b r H Hw Hn HF HB. destruct (wf_cons _ Hw) as (t & r0 & Hts).
  inversion H; subst b; try match goal with H : ?a = r |- _ => subst a end.
  - match goal with H : g_op _ _ _ _ _ |- _ => rename H into Ho end.
    destruct (parse_operation_comp n _ _ _ Ho Hw Hn) as (Hrun & ? & ?). split; [|split; assumption]. rewrite Hts in Hrun, Ho |- *.
    unfold parse_body. eapply run_bind; [reflexivity|]. cbv beta zeta.
    replace (isn KName _ t || is1 KPunct (B "{") t) with true.
    { eapply run_bind; [exact Hrun|]. reflexivity. }
    symmetry. inversion Ho; subst.
    + match goal with H : g_selset _ _ _ _ _ |- _ => inversion H; subst end. match goal with H : pun "{" _ _ |- _ => inversion H; subst end. reflexivity.
    + match goal with H : g_opkind _ _ _ |- _ => inversion H; subst end; match goal with H : kw _ _ _ |- _ => inversion H; subst end; reflexivity.
  - match goal with H : g_frag _ _ _ _ _ |- _ => rename H into Ho end.
    destruct (parse_fragment_comp n _ _ _ Ho Hw Hn) as (Hrun & ? & ?). split; [|split; assumption].
    unfold parse_body. inversion Ho; subst. match goal with H : kw "fragment" _ _ |- _ => inversion H; subst end.
    eapply run_bind; [reflexivity|]. exact Hrun.
  - match goal with H : g_schema _ _ _ _ _ |- _ => rename H into Ho end.
    destruct (parse_tsdef_schema n [] _ _ _ Ho Hw Hn) as (Hrun & ? & ?). split; [|split; assumption]. inversion Ho; subst.
    eapply parse_body_ts; [apply de_none|eassumption|cbn; auto 10|assumption|exact Hrun].
  - match goal with H : g_schema _ _ _ _ _ |- _ => rename H into Ho end. repeat tw.
    destruct (parse_tsdef_schema n [] _ _ _ Ho) as (Hrun & ? & ?); [assumption|lia|]. split; [|split; [assumption|lia]]. inversion Ho; subst.
    eapply parse_body_ts; [apply de_some; eassumption|eassumption|cbn; auto 10|assumption|exact Hrun].
  - match goal with H : g_tydef _ _ _ _ _ _ |- _ => rename H into Ho end. destruct (tydef_kw _ _ _ _ Ho) as (s & r' & Hk & Hin).
    match goal with H : g_desc _ _ _ |- _ => rename H into Hdesc end. cd Hdesc.
    destruct (parse_tsdef_type n _ _ _ _ Ho) as (Hrun1 & ? & ?); [assumption|lia|assumption|assumption|]. split; [|split; [assumption|lia]].
    eapply parse_body_ts; [exact Hdesc|exact Hk| |assumption|exact Hrun1]. unfold tsdef_kws. apply in_or_app. left. exact Hin.
  - match goal with H : g_dirdef _ _ _ _ _ _ |- _ => rename H into Ho end.
    match goal with H : g_desc _ _ _ |- _ => rename H into Hdesc end. pose proof Ho as Ho'. inversion Ho'; subst x. cd Hdesc.
    destruct (parse_tsdef_dir n _ _ _ _ Ho) as (Hrun1 & ? & ?); [assumption|lia|assumption|]. split; [|split; [assumption|lia]].
    eapply parse_body_ts; [exact Hdesc|eassumption| |assumption|exact Hrun1]. unfold tsdef_kws. apply in_or_app. right. left. reflexivity.
  - match goal with H : g_schemaext _ _ _ _ _ |- _ => rename H into Ho end. repeat tw.
    destruct (parse_schemaext_comp n _ _ _ Ho) as (Hrun1 & ? & ?); [assumption|lia|assumption|assumption|].
    split; [|split; [assumption|lia]]. eapply parse_body_ext; [eassumption|]. unfold parse_tsext. rs. inversion Ho; subst. rs. repeat rs.
  - match goal with H : g_tydef _ _ _ _ _ _ |- _ => rename H into Ho end. repeat tw. destruct (tydef_kw _ _ _ _ Ho) as (s & r' & Hk' & Hin).
    destruct (parse_typebody_comp n _ _ _ _ Ho) as (Hrun1 & ? & ?); [assumption|lia|assumption|assumption|].
    split; [|split; [assumption|lia]]. eapply parse_body_ext; [eassumption|]. unfold parse_tsext. rs. inversion Hk'; subst.
    eapply run_bind; [apply (peek_is _ _ _ false); cbn [type_kws In] in Hin; repeat (destruct Hin as [<-|Hin]; [reflexivity|]); destruct Hin|].
    cbv beta iota. eapply run_bind; [apply (peek_is _ _ _ true); unfold isn; cbn [tkind tlit kind_eqb andb]; apply inb_In, in_map, Hin|].
    cbv beta iota. repeat rs.
Qed.

Lemma no_brace r : (~ exists r', pun "{" r r') -> nh (pns ["{"]%string) r.
Proof.
  intros H. destruct r as [|t r0]; [exact I|]. unfold pns, nh, hd_in. cbn [map existsb fst snd]. rewrite orb_false_r. destruct (is1 KPunct (B "{") t) eqn:Ht; [|reflexivity].
  exfalso. apply H. exists r0. apply is1_term. exact Ht.
Qed.

Lemma parse_definition_comp n : forall ts d r, g_def fok lv ts d r -> longest_match d r -> wf ts -> (List.length ts <= n)%nat -> nh after_def r ->
  parse_definition fok n ts = POk (Some d) r /\ wf r /\ (List.length r + 1 <= List.length ts)%nat.
Proof.
  intros ts d r H Hlm Hw Hn HF. destruct H as [t ts b r H]. cbn in Hlm. unfold longest_match in Hlm. cbn in Hlm.
    destruct (parse_body_comp n _ _ _ H Hw Hn HF) as (Hrun & ? & ?).
    { intros Hb. apply no_brace. apply Hlm. exact Hb. }
    split; [|split; assumption]. unfold parse_definition. eapply run_bind; [reflexivity|]. cbv beta. eapply run_bind; [exact Hrun|]. reflexivity.
Qed.
Lemma parse_loop_comp n : forall ts ds r, g_defs fok lv ts ds r -> forall m c e, r = [e] -> tkind e = KEOF -> wf ts ->
  (List.length ts <= n)%nat -> (List.length ts <= m)%nat ->
  parse_loop fok n m c ts = POk (ds, fold_left (fun c d => count_def c (def_body d)) ds c) r.
Proof.
  pose proof (parse_definition_comp n) as Hdef.
  induction 1 as [ts d r H Hl|ts d r1 l r H Hl Hds IH]; intros m c e -> He Hw Hn Hm;
    (destruct m as [|m]; [pose proof (wf_len _ Hw); lia|]); cbn [parse_loop fold_left].
  - destruct (Hdef _ _ _ H Hl Hw Hn) as (Hrun & Hwr & Hlr).
    { destruct e as [k lit ln cl]. cbn in He. subst k. reflexivity. }
    eapply run_bind; [exact Hrun|]. cbv beta iota.
    eapply run_bind; [apply (peek_is _ _ _ false); unfold is0; rewrite He; reflexivity|]. cbv beta iota.
    eapply run_bind; [apply (peek_is _ _ _ true); unfold is0; rewrite He; reflexivity|]. reflexivity.
  - assert (Hst : starts r1).
    { inversion Hds as [? ? ? Hd ? | ? ? ? ? ? Hd ? ?]; subst; inversion Hd; subst; eapply body_starts; eassumption. }
    destruct (starts_after _ Hst) as (Ha & Hi & Hee).
    destruct (Hdef _ _ _ H Hl Hw Hn Ha) as (Hrun & Hwr & Hlr).
    eapply run_bind; [exact Hrun|]. cbv beta iota. destruct (wf_cons _ Hwr) as (t & r0 & Hr1). rewrite Hr1 in *. cbn in Hi, Hee.
    assert (Hk : forall k, tkind t <> k -> is0 k t = false).
    { intros k Hk. unfold is0. destruct (kind_eqb (tkind t) k) eqn:He'; [apply kind_eqb_true in He'; congruence|reflexivity]. }
    eapply run_bind; [apply (peek_is _ _ _ false); apply Hk; assumption|]. cbv beta iota.
    eapply run_bind; [apply (peek_is _ _ _ false); apply Hk; assumption|]. cbv beta iota.
    eapply run_bind; [apply (IH m (count_def c (def_body d)) e eq_refl He Hwr); lia|]. reflexivity.
Qed.

(** Definitions up to a dangling "fragment". *)
Inductive panics : list token -> Prop :=
| pn_now ts : dangling_fragment ts -> panics ts
| pn_later ts d r : g_def fok lv ts d r -> longest_match d r -> panics r -> panics ts.
Lemma panics_starts ts : panics ts -> starts ts.
Proof.
  intros [ts' (r & Hk & _)|ts' d r Hd _ _]; [eapply st_kw; [exact Hk|cbn; auto 10]|]. inversion Hd; subst. eapply body_starts; eassumption.
Qed.
Lemma parse_loop_panics n : forall ts, panics ts -> forall m c, wf ts -> (List.length ts <= n)%nat -> (List.length ts <= m)%nat ->
  parse_loop fok n m c ts = PCrash NilDeref.
Proof.
  induction 1 as [ts (r & Hk & Hn)|ts d r H Hl Hp IH]; intros m c Hw Hlen Hm; (destruct m as [|m]; [pose proof (wf_len _ Hw); lia|]); cbn [parse_loop].
  - repeat tw. assert (Hb : parse_body fok n ts = POk None r).
    { unfold parse_body. inversion Hk; subst. eapply run_bind; [reflexivity|]. cbv beta zeta.
      match goal with |- (if ?x then _ else _) _ = _ => change x with false end. cbv iota.
      match goal with |- (if ?x then _ else _) _ = _ => change x with true end. cbv iota.
      unfold parse_fragment. eapply run_bind; [exact (run_skip1 _ _ _ _ Hk eq_refl Hw)|]. cbn [negb].
      eapply run_bind; [apply run_consume0_no; [assumption|]|reflexivity].
      destruct (wf_cons _ Hwf) as (t & r0 & ->). cbn. intros E. apply (Hn (tlit t) r0). destruct t as [kk lit0 l9 c9]. cbn in E. subst kk. constructor. }
    unfold pbind at 1. unfold parse_definition. destruct (wf_cons _ Hw) as (t & r0 & ->). unfold pbind. cbn [tok]. rewrite Hb. reflexivity.
  - destruct (starts_after _ (panics_starts _ Hp)) as (Ha & Hi & Hee).
    destruct (parse_definition_comp n _ _ _ H Hl Hw Hlen Ha) as (Hrun & Hwr & Hlr).
    unfold pbind at 1. rewrite Hrun. cbv beta iota zeta. specialize (IH m (count_def c (def_body d)) Hwr ltac:(lia) ltac:(lia)).
    destruct (wf_cons _ Hwr) as (t & r0 & Hr1). rewrite Hr1 in *. cbn in Hi, Hee.
    assert (Hk : forall k, tkind t <> k -> is0 k t = false).
    { intros k Hk. unfold is0. destruct (kind_eqb (tkind t) k) eqn:He'; [apply kind_eqb_true in He'; congruence|reflexivity]. }
    unfold pbind at 1. unfold peek0. rewrite (peek_is _ _ _ false) by (apply Hk; assumption).
    unfold pbind at 1. rewrite (peek_is _ _ _ false) by (apply Hk; assumption).
    unfold pbind. rewrite IH. reflexivity.
Qed.
Theorem parse_tokens_panics ts : wf ts -> panics ts -> parse_tokens fok ts = PCrash NilDeref.
Proof. intros Hw Hp. unfold parse_tokens, pbind. rewrite parse_loop_panics; try assumption; auto. Qed.

(** Every document of the grammar is accepted, with its definitions in order. *)
Theorem parse_tokens_complete ts ds : wf ts -> g_document fok lv ts ds -> exists r,
  parse_tokens fok ts = POk (doc_of (ds, fold_left (fun c d => count_def c (def_body d)) ds (mkC 0 0 0 0 0 0 []))) r.
Proof.
  intros Hw (e & He & H). exists [e]. unfold parse_tokens. eapply run_bind; [|reflexivity].
  eapply parse_loop_comp; try eassumption; try reflexivity; lia.
Qed.

End Complete.
