(** * DumpMain: the dump of a document derives it again (for the proof of C15). *)
From Verif Require Import Base Utf8 Utf8Proofs Lexer LexerTotal LexSpec LexProps PropLex AST Parser Grammar GrammarProps PropParse.
From Verif Require Import Dumper DumpSpec DumpText DumpWords DumpProofs DumpGrammar.

Section Main.
Variable fg : bytes -> bytes.
Variable fok : bytes -> bool.
Notation Ln := Lenient.

Lemma body_starts ts b r : g_body fok Ln ts b r -> exists t ts', ts = t :: ts'.
Proof.
  intros H. assert (T : forall k l x y, terminal k l x y -> exists t x', x = t :: x') by (intros k l x y X; inv X; eauto).
  inv H; repeat match goal with
    | H : g_op _ _ _ _ _ |- _ => inv H | H : g_selset _ _ _ _ _ |- _ => inv H | H : g_opkind _ _ _ |- _ => inv H
    | H : g_frag _ _ _ _ _ |- _ => inv H | H : g_schema _ _ _ _ _ |- _ => inv H | H : g_desc _ _ _ |- _ => inv H
    | H : g_tydef _ _ _ _ _ _ |- _ => inv H | H : g_dirdef _ _ _ _ _ _ |- _ => inv H end; eauto.
Qed.
Lemma defs_parts ts l r : g_defs fok Ln ts l r -> propers ts -> Forall (fun d => derives (g_body fok Ln) (def_body d)) l.
Proof.
  induction 1 as [ts d r H Hl|ts d r1 l r H Hl H2 IH]; intros Hp.
  - constructor; [|constructor]. inv H. cbn [def_body]. eexists _, _. split; eassumption.
  - pps. constructor; [|auto]. inv H. cbn [def_body]. eexists _, _. split; eassumption.
Qed.
Lemma pr_defs n l : l <> [] -> forall i, i + List.length l = n ->
  Forall (fun d => derives (g_body fok Ln) (def_body d)) l -> Forall (fun d => body_survives fg (n = 1) (def_body d)) l ->
  pr (fun ts r => no_block r -> exists ds, map def_body ds = map def_body l /\ g_defs fok Ln ts ds r /\ (n <> 1 -> no_block ts)) false
     (wfori (fun i d => wwhen (negb (Nat.eqb i 0)) wlf +++ dumpDefinition fg n (def_body d) +++ wwhen (Nat.ltb i (n - 1)) wlf) i l) true.
Proof.
  induction l as [|d l IH]; intros Hne i En HD HS; [congruence|]. pose proof (Forall_inv HD) as (t1 & r1 & D1 & P1). apply Forall_inv_tail in HD. pose proof (Forall_inv HS) as S1. apply Forall_inv_tail in HS.
  pose proof (pr_body fg fok n t1 (def_body d) r1 D1 P1 S1) as PB. cbn [wfori].
  assert (P0 : pr eq false (wwhen (negb (Nat.eqb i 0)) wlf) false) by (destruct (negb (Nat.eqb i 0)); [apply pr_lf|apply pr_skip]).
  rewrite wseq_assoc. eapply pr_seq_l; [exact P0|]. rewrite wseq_assoc. destruct l as [|d' l].
  - cbn [wfori List.length] in *. replace (Nat.ltb i (n - 1)) with false by (symmetry; apply Nat.ltb_ge; lia). cbn [wwhen]. rewrite !wseq_skip_r.
    eapply pr_imp; [exact PB|]. intros ts9 r9 [A1 A2] Hb. destruct (body_starts _ _ _ A1) as (t & ts' & ->).
    exists [mkDef (tline t) (tcol t) (def_body d)]. split; [reflexivity|]. split; [|exact A2]. apply ds_one; [constructor; exact A1|]. intros _. exact Hb.
  - cbn [List.length] in En. replace (Nat.ltb i (n - 1)) with true by (symmetry; apply Nat.ltb_lt; lia). cbn [wwhen].
    assert (Ni : n <> 1) by lia.
    eapply pr_imp; [eapply pr_seq; [exact PB|eapply pr_seq_l; [apply pr_lf|]]|].
    + apply IH; [discriminate|cbn [List.length]; lia|assumption|assumption].
    + intros ts9 r9 (m & [A1 A2] & A3) Hb. destruct (A3 Hb) as (ds & E & G1 & G2). destruct (body_starts _ _ _ A1) as (t & ts' & ->).
      exists (mkDef (tline t) (tcol t) (def_body d) :: ds). split; [cbn [map def_body]; f_equal; exact E|]. split; [|exact A2].
      eapply ds_more; [constructor; exact A1| |exact G1]. intros _. exact (G2 Ni).
Qed.
End Main.

(** Names and floats of a clean source are names and floats. *)
Lemma source_propers cs ts : clean cs -> tokens (utf8s cs) ts -> propers ts.
Proof.
  intros Hc (s & Hl). destruct (C03_names cs Hc) as (t1 & l1 & s1 & p1 & E1 & F1). destruct (C04_numbers cs Hc) as (t2 & l2 & s2 & p2 & E2 & F2).
  destruct (lex_all_total (utf8s cs)) as (t3 & l3 & s3 & E3 & Hlast & _).
  rewrite Hl in *. injection E1 as E1 _. injection E2 as E2 _. injection E3 as E3 _. subst ts.
  apply app_inj_tail in E2 as [<- <-]. apply app_inj_tail in E3 as [<- <-]. apply Forall_app. split.
  - apply Forall_forall. intros t Ht. split; intros Hk.
    + clear - F1 Ht Hk. induction F1 as [|x [[b w] a] l p H F IH]; [destruct Ht|]. destruct Ht as [<-|Ht]; [|auto]. destruct H as [_ H]. destruct (H Hk) as ((c & u & -> & Hc & Hu) & E & _).
      exists c, u. auto.
    + clear - F2 Ht Hk. induction F2 as [|x [[b w] a] l p H F IH]; [destruct Ht|]. destruct Ht as [<-|Ht]; [|auto]. destruct H as (_ & _ & H). destruct (H Hk) as (Hf & E & _). exists w. auto.
  - constructor; [|constructor]. unfold proper, is_last in *. destruct (tkind l1); split; discriminate.
Qed.

(** The types of a document that survives are closed. *)
Lemma survives_closed fg alone b : body_survives fg alone b -> body_types closed_type b.
Proof.
  assert (HB : forall t, bare t -> closed_type t) by (intros t (n & ->); exact I).
  assert (HU : forall t, unlisted t -> closed_type t) by (intros t (n & nn & ->); exact I).
  assert (HI : forall t, has_items t -> closed_type t) by (induction 1; [exact I|assumption]).
  assert (IV : forall i, iv_survives fg i -> iv_types closed_type i) by (intros i (_ & U & _); apply HU, U).
  assert (FD : forall f, fd_survives fg f -> fd_types closed_type f) by (intros f (_ & A & U & _); split; [apply HU, U|eapply Forall_impl; [exact IV|exact A]]).
  destruct b; cbn [body_survives body_types]; auto.
  - intros (H & _). eapply Forall_impl; [|exact H]. cbn. intros v [V _]. auto.
  - intros (_ & H1 & _ & H2 & H3 & _ & H4). unfold td_types.
    assert (Forall closed_type (t_impl t)) by (eapply Forall_impl; [exact HB|exact H1]). assert (Forall closed_type (t_members t)) by (eapply Forall_impl; [exact HB|exact H3]).
    assert (Forall (fd_types closed_type) (t_fields t)) by (eapply Forall_impl; [exact FD|exact H2]). assert (Forall (iv_types closed_type) (t_inputs t)) by (eapply Forall_impl; [exact IV|exact H4]).
    tauto.
  - intros (_ & H). eapply Forall_impl; [exact IV|exact H].
  - intros (_ & H1 & _ & H2 & H3 & _ & H4). unfold td_types.
    assert (Forall closed_type (t_impl t)) by (eapply Forall_impl; [exact HB|exact H1]). assert (Forall closed_type (t_members t)) by (eapply Forall_impl; [exact HB|exact H3]).
    assert (Forall (fd_types closed_type) (t_fields t)) by (eapply Forall_impl; [exact FD|exact H2]). assert (Forall (iv_types closed_type) (t_inputs t)) by (eapply Forall_impl; [exact IV|exact H4]).
    tauto.
Qed.

(** Documents with the same definitions have the same counters and the same dump. *)
Lemma same_counters fok i i' d d' : parse fok i = Doc d -> parse fok i' = Doc d' -> map def_body (doc_defs d) = map def_body (doc_defs d') ->
  same_outcome (Doc d) (Doc d').
Proof.
  intros H H' E. destruct (C14_counters fok i d H) as (A1 & A2 & A3 & A4 & A5 & A6 & ns & N1 & N2 & N3).
  destruct (C14_counters fok i' d' H') as (B1 & B2 & B3 & B4 & B5 & B6 & ns' & M1 & M2 & M3).
  assert (C : forall p, count p d = count p d').
  { intros p. unfold count. assert (L : forall l, List.length (filter (fun x => p (def_body x)) l) = List.length (filter p (map def_body l))).
    { induction l as [|x l IH]; [reflexivity|]. cbn. destruct (p (def_body x)); cbn; rewrite IH; reflexivity. }
    rewrite !L, E. reflexivity. }
  assert (X : forall a b n, map def_body (doc_defs a) = map def_body (doc_defs b) -> extended_name a n -> extended_name b n).
  { intros a b n Eab (x & t & Hx & Ht & Hn). apply (in_map def_body) in Hx. rewrite Eab in Hx. apply in_map_iff in Hx as (y & Ey & Hy). exists y, t. split; [exact Hy|]. split; congruence. }
  cbn [same_outcome]. rewrite A1, A2, A3, A4, A5, A6, B1, B2, B3, B4, B5, B6, N3, M3, !C. split; [exact E|]. do 6 (split; [reflexivity|]).
  apply Nat.le_antisymm; apply NoDup_incl_length; try assumption; intros n Hn.
  - apply M2, (X d d' n E), N2, Hn.
  - apply N2, (X d' d n (eq_sym E)), M2, Hn.
Qed.
Lemma dump_same fg d d' : map def_body (doc_defs d) = map def_body (doc_defs d') -> sdump fg d = sdump fg d'.
Proof.
  intros E. unfold sdump, dumpDefinitions. pose proof (f_equal (@List.length _) E) as L. rewrite !map_length in L. rewrite L.
  assert (M : forall f : nat -> body -> W, forall l i, wfori (fun i d => f i (def_body d)) i l = wfori f i (map def_body l)).
  { intros f l. induction l as [|x l IH]; intros i; [reflexivity|]. cbn [wfori map]. rewrite IH. reflexivity. }
  set (f := fun i b => wwhen (negb (Nat.eqb i 0)) wlf +++ dumpDefinition fg (List.length (doc_defs d')) b +++ wwhen (Nat.ltb i (List.length (doc_defs d') - 1)) wlf).
  change (wfori (fun i x => f i (def_body x)) 0 (doc_defs d) = wfori (fun i x => f i (def_body x)) 0 (doc_defs d')). rewrite !M, E. reflexivity.
Qed.

Theorem roundtrip fg fok cs d : clean cs -> parse fok (utf8s cs) = Doc d -> dumpable fg d ->
  exists text d', sdump fg d = Some text /\ parse fok text = Doc d' /\ same_outcome (Doc d') (Doc d).
Proof.
  intros Hc Hd Hs. destruct (C13_sound fok _ d Hd) as (ts & Ht & _ & Hg). pose proof (source_propers cs ts Hc Ht) as Hp.
  assert (HL : g_document fok Lenient ts (doc_defs d)).
  { apply Hg. eapply Forall_impl; [|exact Hs]. intros x. apply survives_closed. }
  clear Hg. destruct HL as (e & He & HL). pose proof (defs_parts fok _ _ _ HL Hp) as Hparts.
  assert (Hne : doc_defs d <> []) by (intros E; rewrite E in HL; inversion HL).
  destruct (pr_defs fg fok (List.length (doc_defs d)) (doc_defs d) Hne 0 eq_refl Hparts Hs) as (text & toks & Et & Htx & HR).
  destruct (tx_tokens _ _ _ Htx) as (ts' & s' & Hl & Es).
  assert (X : exists p e', ts' = p ++ [e'] /\ map kl p = toks /\ tkind e' = KEOF).
  { destruct (map_eq_app shape ts' toks [(KEOF, [])] Es) as (p & q & -> & E1 & E2). destruct q as [|e' [|? ?]]; try discriminate. exists p, e'. split; [reflexivity|]. split.
    - rewrite <- E1. apply map_ext_in. intros t Hin. unfold kl, shape. destruct (tkind t) eqn:Ek; try reflexivity. exfalso. 
      destruct (lex_all_total (utf8s text)) as (t3 & l3 & s3 & E3 & _ & Hn & _). rewrite Hl in E3. injection E3 as E3 _. apply app_inj_tail in E3 as [<- _].
      rewrite Forall_forall in Hn. specialize (Hn t Hin). unfold is_last in Hn. rewrite Ek in Hn. discriminate.
    - cbn [map] in E2. injection E2 as E2 _. exact E2. }
  destruct X as (p & e' & -> & Ep & He').
  destruct (HR p [e'] Ep) as (ds & Ed & Hgd & _).
  { intros (r & H). inversion H; subst. discriminate. }
  assert (HG : g_document fok Lenient (p ++ [e']) ds) by (exists e'; split; assumption).
  destruct (C12_complete fok (utf8s text) _ Lenient ds (ex_intro _ s' Hl) (or_intror eq_refl) HG) as (d' & Hd' & <-).
  exists (utf8s text), d'. split; [exact Et|]. split; [exact Hd'|]. eapply same_counters; eassumption.
Qed.
