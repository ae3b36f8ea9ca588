(** * PropTypeText: theorem C62 (the text of a type is the type). *)
From Verif Require Import Base Utf8 Utf8Proofs Lexer LexerTotal LexSpec LexAgree LexMain LexProps PropLex.
From Verif Require Import AST Parser Grammar GrammarProps PropParse Dumper DumpSpec DumpText DumpWords DumpBlocks DumpProofs DumpGrammar.
From Verif Require Import Context WellFormed GoodNodes WalkSpec Walker Messages MessageProofs PropWell SchemaSpec Samples.

(** ** Specification *)
(** The types the grammar knows (the parser also makes a list type without items, from an unclosed [[]). *)
Inductive grammatical : ty -> Prop :=
| gt_named n nn : proper_name n -> grammatical (TNamed n nn)
| gt_list t nn : grammatical t -> grammatical (TList t nn).
(** The source in which a text stands as the type of a variable, and what it says when the text is a type. *)
Definition as_variable (text : bytes) : bytes := B "query($a:" ++ text ++ B "){b}".
Definition query_with (t : ty) : body := DOp (mkOp Query [] [mkVar (B "a") t None] [] [SField [] (B "b") [] [] []]).
(** The same for the type of a field. *)
Definition as_field (text : bytes) : bytes := B "type A{b:" ++ text ++ B "}".
Definition object_with (t : ty) : body := DType (mkTd KObject [] (B "A") [] [] [mkFd [] (B "b") [] t []] [] [] []).

(** ** Proof *)
Lemma proper_is_name n : proper_name n -> is_name n.
Proof.
  intros (c & r & -> & Hc & Hr). exists (zb c), (map zb r). split.
  - change (zb c :: map zb r) with (map zb (c :: r)). symmetry. apply ascii_utf8s. unfold ascii_text. constructor; [unfold letter in Hc; lia|].
    eapply Forall_impl; [|exact Hr]. cbn. intros b H. unfold letter, digit in H. lia.
  - split; [exact Hc|]. apply Forall_map. eapply Forall_impl; [|exact Hr]. cbn. intros b H. unfold name_char. tauto.
Qed.
Lemma grammatical_text t : grammatical t -> dumpType t = Some (ty_string t).
Proof.
  induction 1 as [n nn Hn|t nn H IH]; cbn [dumpType ty_string].
  - destruct nn; cbn [wwhen]; reflexivity.
  - rewrite IH. destruct nn; cbn; rewrite <- ?app_assoc; reflexivity.
Qed.
Lemma pr_grammatical lv t : grammatical t -> pr (gr (g_type lv) t) false (dumpType t) true.
Proof.
  induction 1 as [n nn Hn|t nn H IH]; cbn [dumpType].
  - apply proper_is_name in Hn. destruct nn; cbn [wwhen].
    + eapply pr_imp; [eapply pr_seq; [apply pr_name, Hn|apply pr_end, pr_bang]|]. intros ts r (m & A1 & A2). econstructor; eauto.
    + rewrite wseq_skip_r. eapply pr_imp; [apply pr_name, Hn|]. intros ts r A. constructor. exact A.
  - destruct nn; cbn [wwhen].
    + eapply pr_imp; [eapply pr_seq; [apply pr_lbra|eapply pr_seq; [exact IH|eapply pr_seq; [apply pr_rbra|apply pr_end, pr_bang]]]|].
      intros ts r (m1 & A1 & m2 & A2 & m3 & A3 & A4). econstructor; eauto.
    + rewrite wseq_skip_r. eapply pr_imp; [eapply pr_seq; [apply pr_lbra|eapply pr_seq; [exact IH|apply pr_end, pr_rbra]]|].
      intros ts r (m1 & A1 & m2 & A2 & A3). econstructor; eauto.
Qed.
Lemma pr_parse fok lv (R : list token -> list token -> list definition -> Prop) o : lv = June2018 \/ lv = Lenient ->
  pr (fun ts r => no_block r -> exists ds, R ts r ds /\ g_defs fok lv ts ds r) false o true ->
  exists text d, o = Some text /\ parse fok text = Doc d /\ exists ts e, R ts [e] (doc_defs d).
Proof.
  intros Hlv (cs & toks & Eo & Htx & HR). destruct (tx_tokens _ _ _ Htx) as (ts' & s' & Hl & Es).
  assert (X : exists p e', ts' = p ++ [e'] /\ map kl p = toks /\ tkind e' = KEOF).
  { destruct (map_eq_app shape ts' toks [(KEOF, [])] Es) as (p & q & -> & E1 & E2). destruct q as [|e' [|? ?]]; try discriminate. exists p, e'. split; [reflexivity|]. split.
    - rewrite <- E1. apply map_ext_in. intros t Hin. unfold kl, shape. destruct (tkind t) eqn:Ek; try reflexivity. exfalso.
      destruct (lex_all_total (utf8s cs)) as (t3 & l3 & s3 & E3 & _ & Hn & _). rewrite Hl in E3. injection E3 as E3 _. apply app_inj_tail in E3 as [<- _].
      rewrite Forall_forall in Hn. specialize (Hn t Hin). unfold is_last in Hn. rewrite Ek in Hn. discriminate.
    - cbn [map] in E2. injection E2 as E2 _. exact E2. }
  destruct X as (p & e' & -> & Ep & He').
  destruct (HR p [e'] Ep) as (ds & Ed & Hgd).
  { intros (r & H). inversion H; subst. discriminate. }
  assert (HG : g_document fok lv (p ++ [e']) ds) by (exists e'; split; assumption).
  destruct (C12_complete fok (utf8s cs) _ lv ds (ex_intro _ s' Hl) Hlv HG) as (d' & Hd' & <-).
  exists (utf8s cs), d'. split; [exact Eo|]. split; [exact Hd'|]. exists (p ++ [e']), e'. exact Ed.
Qed.
Lemma one_def fok lv ts b r : g_body fok lv ts b r -> (block_omitted b -> False) -> exists d, def_body d = b /\ g_defs fok lv ts [d] r.
Proof.
  intros H Hb. assert (X : exists t ts', ts = t :: ts').
  { assert (T : forall k l x y, terminal k l x y -> exists t x', x = t :: x') by (intros k l x y X; inv X; eauto).
    inv H; repeat match goal with
    | H : g_op _ _ _ _ _ |- _ => inv H | H : g_selset _ _ _ _ _ |- _ => inv H | H : g_opkind _ _ _ |- _ => inv H
    | H : g_frag _ _ _ _ _ |- _ => inv H | H : g_schema _ _ _ _ _ |- _ => inv H | H : g_desc _ _ _ |- _ => inv H
    | H : g_tydef _ _ _ _ _ _ |- _ => inv H | H : g_dirdef _ _ _ _ _ _ |- _ => inv H end; eauto. }
  destruct X as (t & ts' & ->). exists (mkDef (tline t) (tcol t) b). split; [reflexivity|]. apply ds_one; [constructor; exact H|].
  intros Hc. destruct (Hb Hc).
Qed.
Lemma nm s : namey (B s) = true -> B s <> [] -> pr (name (B s)) false (ws s) true.
Proof. intros H N. apply pr_name. apply namey_name; assumption. Qed.
Lemma pr_query fok lv t : grammatical t ->
  pr (fun ts r => no_block r -> exists ds, map def_body ds = [query_with t] /\ g_defs fok lv ts ds r) false
     (ws "query" +++ ws "(" +++ ws "$" +++ ws "a" +++ ws ":" +++ dumpType t +++ ws ")" +++ ws "{" +++ ws "b" +++ ws "}") true.
Proof.
  intros H. eapply pr_imp.
  - eapply pr_seq; [apply (pr_kw "query"); [reflexivity|discriminate]|]. eapply pr_seq; [apply pr_lpar|]. eapply pr_seq; [apply pr_dollar|].
    eapply pr_seq; [apply (nm "a"); [reflexivity|discriminate]|]. eapply pr_seq; [apply pr_colon|]. eapply pr_seq; [apply (pr_grammatical lv), H|].
    eapply pr_seq; [apply pr_rpar|]. eapply pr_seq; [apply pr_lcur|]. eapply pr_seq; [apply (nm "b"); [reflexivity|discriminate]|]. apply pr_end, pr_rcur.
  - intros ts r (m1 & A1 & m2 & A2 & m3 & A3 & m4 & A4 & m5 & A5 & m6 & A6 & m7 & A7 & m8 & A8 & m9 & A9 & A10) _.
    destruct (one_def fok lv ts (query_with t) r) as (d & E & G).
    + apply b_op. eapply op_long; [apply ok_query; exact A1|apply on_none| |constructor|].
      * eapply vs_some; [exact A2| |exact A7]. split; [|discriminate]. econstructor; [|constructor]. econstructor; [exact A3|exact A4|exact A5|exact A6|constructor].
      * econstructor; [exact A8| |discriminate|exact A10]. econstructor; [|constructor]. eapply sel_field; [apply al_none; exact A9|constructor|constructor|constructor].
    + cbn. tauto.
    + exists [d]. split; [cbn [map]; rewrite E; reflexivity|exact G].
Qed.
Lemma pr_object fok lv t : grammatical t ->
  pr (fun ts r => no_block r -> exists ds, map def_body ds = [object_with t] /\ g_defs fok lv ts ds r) false
     (ws "type" +++ ws " " +++ ws "A" +++ ws "{" +++ ws "b" +++ ws ":" +++ dumpType t +++ ws "}") true.
Proof.
  intros H. eapply pr_imp.
  - eapply pr_seq; [apply (pr_kw "type"); [reflexivity|discriminate]|]. eapply pr_seq; [apply pr_sp|].
    eapply pr_seq; [apply (nm "A"); [reflexivity|discriminate]|]. eapply pr_seq; [apply pr_lcur|].
    eapply pr_seq; [apply (nm "b"); [reflexivity|discriminate]|]. eapply pr_seq; [apply pr_colon|]. eapply pr_seq; [apply (pr_grammatical lv), H|]. apply pr_end, pr_rcur.
  - intros ts r (m1 & A1 & m2 & <- & m3 & A3 & m4 & A4 & m5 & A5 & m6 & A6 & m7 & A7 & A8) _.
    destruct (one_def fok lv ts (object_with t) r) as (d & E & G).
    + eapply b_type; [apply de_none|]. eapply td_object; [exact A1|exact A3|constructor|constructor|].
      eapply bl_some; [exact A4| |exact A8]. split; [|discriminate]. econstructor; [|constructor].
      econstructor; [constructor|exact A5|constructor|exact A6|exact A7|constructor].
    + cbn. intros [? _] || intros ?; congruence.
    + exists [d]. split; [cbn [map]; rewrite E; reflexivity|exact G].
Qed.

(** ** C62.  [Type.String()] writes a type in GraphQL: as the type of a variable or of a field the text means that type. *)
Theorem C62_text : forall fok t, grammatical t ->
  (exists d, parse fok (as_variable (ty_string t)) = Doc d /\ map def_body (doc_defs d) = [query_with t]) /\
  (exists d, parse fok (as_field (ty_string t)) = Doc d /\ map def_body (doc_defs d) = [object_with t]).
Proof.
  intros fok t H. split.
  - destruct (pr_parse fok June2018 (fun _ _ ds => map def_body ds = [query_with t]) _ (or_introl eq_refl) (pr_query fok June2018 t H)) as (text & d & E & P & _ & _ & R).
    exists d. split; [|exact R]. rewrite <- P. f_equal. rewrite (grammatical_text t H) in E. cbn in E. injection E as <-. reflexivity.
  - destruct (pr_parse fok June2018 (fun _ _ ds => map def_body ds = [object_with t]) _ (or_introl eq_refl) (pr_object fok June2018 t H)) as (text & d & E & P & _ & _ & R).
    exists d. split; [|exact R]. rewrite <- P. f_equal. rewrite (grammatical_text t H) in E. cbn in E. injection E as <-. reflexivity.
Qed.
Print Assumptions C62_text.

(** So different types have different texts, *)
Theorem C62_injective : forall t t', grammatical t -> grammatical t' -> ty_string t = ty_string t' -> t = t'.
Proof.
  intros t t' H H' E. destruct (C62_text (fun _ => true) t H) as [(d & P & Q) _]. destruct (C62_text (fun _ => true) t' H') as [(d' & P' & Q') _].
  rewrite E in P. rewrite P in P'. injection P' as ->. rewrite Q in Q'. unfold query_with in Q'. congruence.
Qed.
Print Assumptions C62_injective.

Lemma grammatical_word t : grammatical t -> Messages.word (ty_string t).
Proof.
  intros H. apply (type_word proper_name proper_word). induction H as [n nn Hn|t nn H IH]; cbn [wf_type]; assumption.
Qed.
Lemma dotted n n' x y : proper_name n -> proper_name n' -> n ++ B "." ++ x = n' ++ B "." ++ y -> n = n' /\ x = y.
Proof.
  intros H H'. assert (N : forall m, proper_name m -> ~ In (bz 46) m).
  { intros m (c & r & -> & Hc & Hr) [Hi|Hi]; [subst c; rewrite zb_bz in Hc by lia; unfold letter in Hc; lia|]. rewrite Forall_forall in Hr. apply Hr in Hi. rewrite zb_bz in Hi by lia. unfold letter, digit in Hi. lia. }
  apply N in H. apply N in H'. clear N. revert n' H'. induction n as [|c n IH]; intros [|c' n'] H' E; cbn in E.
  - split; [reflexivity|congruence].
  - exfalso. apply H'. left. injection E as <- _. reflexivity.
  - exfalso. apply H. left. injection E as -> _. reflexivity.
  - injection E as <- E. destruct (IH (fun F => H (or_intror F)) n' (fun F => H' (or_intror F)) E) as [-> ->]. split; reflexivity.
Qed.

(** and the messages that cite types tell them apart: the required argument that is missing, *)
Theorem C62_missing_argument : forall d d' a a' t t', Forall proper_name [d; d'; a; a'] -> grammatical t -> grammatical t' ->
  message (EMissingArg d a (ty_string t)) = message (EMissingArg d' a' (ty_string t')) -> d = d' /\ a = a' /\ t = t'.
Proof.
  intros d d' a a' t t' F H H' E. pose proof (Forall_inv F) as F1. apply Forall_inv_tail in F. pose proof (Forall_inv F) as F2. apply Forall_inv_tail in F.
  pose proof (Forall_inv F) as F3. apply Forall_inv_tail in F. pose proof (Forall_inv F) as F4.
  assert (X : EMissingArg d a (ty_string t) = EMissingArg d' a' (ty_string t')).
  { apply message_inj; [| |exact E]; cbn [worded]; (split; [apply proper_word; assumption|split; [apply proper_word; assumption|]]); apply grammatical_word; assumption. }
  split; [congruence|]. split; [congruence|]. apply C62_injective; [exact H|exact H'|congruence].
Qed.
Print Assumptions C62_missing_argument.
(** and the field that has another type than its interface says. *)
Theorem C62_field_type : forall i f t d g u i' f' t' d' g' u', Forall proper_name [i; f; d; g; i'; f'; d'; g'] -> Forall grammatical [t; u; t'; u'] ->
  message (EMsg (B "Interface field " ++ i ++ B "." ++ f ++ B " expects type " ++ ty_string t ++ B " but " ++ d ++ B "." ++ g ++ B " is type " ++ ty_string u)) =
  message (EMsg (B "Interface field " ++ i' ++ B "." ++ f' ++ B " expects type " ++ ty_string t' ++ B " but " ++ d' ++ B "." ++ g' ++ B " is type " ++ ty_string u')) ->
  (i, f, t, d, g, u) = (i', f', t', d', g', u').
Proof.
  intros i f t d g u i' f' t' d' g' u' F G E. cbn [message] in E. apply app_inv_head in E.
  repeat match goal with F : Forall proper_name (_ :: _) |- _ => let X := fresh "P" in pose proof (Forall_inv F) as X; apply Forall_inv_tail in F end.
  repeat match goal with F : Forall grammatical (_ :: _) |- _ => let X := fresh "G" in pose proof (Forall_inv F) as X; apply Forall_inv_tail in F end.
  apply dotted in E; [|assumption|assumption]. destruct E as [-> E].
  change (B " expects type ") with (bz 32 :: B "expects type ") in E. cbn [app] in E. apply spaced in E; [|apply proper_word; assumption..]. destruct E as [-> E]. apply app_inv_head in E.
  change (B " but ") with (bz 32 :: B "but ") in E. cbn [app] in E. apply spaced in E; [|apply grammatical_word; assumption..]. destruct E as [E1 E]. apply app_inv_head in E.
  apply dotted in E; [|assumption|assumption]. destruct E as [-> E].
  change (B " is type ") with (bz 32 :: B "is type ") in E. cbn [app] in E. apply spaced in E; [|apply proper_word; assumption..]. destruct E as [-> E]. apply app_inv_head in E.
  apply C62_injective in E; [|assumption..]. apply C62_injective in E1; [|assumption..]. subst. reflexivity.
Qed.
Print Assumptions C62_field_type.

(** The types of a document that was parsed from a text are of this kind, unless [[] was not closed. *)
Theorem C62_parsed : forall fok cs d t, Forall scalar cs -> ~ In 0%Z cs -> parse fok (utf8s cs) = Doc d -> In (NType t) (nodes d) -> has_items t -> grammatical t.
Proof.
  intros fok cs d t Hs Hz H Hn Hi. pose proof (good_nodes _ _ d _ (C55_text fok cs d Hs Hz H) Hn) as W. cbn [good] in W. clear Hn.
  induction Hi as [n nn|u nn Hi IH]; cbn [wf_type] in W; constructor; auto.
Qed.
Print Assumptions C62_parsed.
(** So reading back the text of a type of a parsed document gives the type. *)
Theorem C62_read_back : forall fok cs d t, Forall scalar cs -> ~ In 0%Z cs -> parse fok (utf8s cs) = Doc d -> In (NType t) (nodes d) -> has_items t ->
  exists d', parse fok (as_variable (ty_string t)) = Doc d' /\ map def_body (doc_defs d') = [query_with t].
Proof. intros fok cs d t Hs Hz H Hn Hi. apply (proj1 (C62_text fok t (C62_parsed fok cs d t Hs Hz H Hn Hi))). Qed.
Print Assumptions C62_read_back.
(** The text of an unclosed list type is empty. *)
Theorem C62_refuted_unclosed : exists d t, parse anyfloat (B "query ($a: [) { b }") = Doc d /\ In (NType t) (nodes d) /\ ty_string t = [] /\
  ~ exists d', parse anyfloat (as_variable (ty_string t)) = Doc d'.
Proof.
  exists (src "query ($a: [) { b }"), TListNil. split; [vm_compute; reflexivity|]. split; [|split; [reflexivity|]].
  - vm_compute. repeat (first [left; reflexivity|right]).
  - intros (d' & H). vm_compute in H. discriminate H.
Qed.
Example C62_nonvacuous : let t := TList (TList (TNamed (B "Int") true) false) true in
  grammatical t /\ ty_string t = B "[[Int!]]!" /\ In (NType t) (nodes (src "query ($a: [ [Int !],] !) { b }")) /\ has_items t /\
  as_variable (ty_string t) = B "query($a:[[Int!]]!){b}" /\ as_field (ty_string t) = B "type A{b:[[Int!]]!}".
Proof.
  split. { do 3 constructor. exists (bz 73), (B "nt"). split; [reflexivity|]. split; [vm_compute; intuition congruence|]. repeat constructor; vm_compute; intuition congruence. }
  split; [reflexivity|]. split. { vm_compute. repeat (first [left; reflexivity|right]). }
  split; [repeat constructor|]. split; reflexivity.
Qed.
