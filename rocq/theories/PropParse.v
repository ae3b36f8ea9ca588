(** * PropParse: property theorems C10-C14 (the parser), and the parsing half of C09.
    Model: [Parser.parse fok input] — [NewParser(input).Parse()] on the tokens of [Lexer.lex_all input].
    Specification: Grammar.v ([g_document]); [fok lit] says that strconv.ParseFloat accepts the literal, everything holds
    for any such function. *)
From Verif Require Import Base Utf8 Utf8Proofs Lexer LexerTotal LexSpec LexAgree LexMain LexProps PropLex.
From Verif Require Import AST Parser Grammar GrammarProps ParserWp ParserSound ParserComplete ParserComplete2 ParserRel.

(** The tokens Parse works on. *)
Definition tokens (i : bytes) (ts : list token) : Prop := exists s, lex_all i = Ok ts s.

Lemma wf_app ts last : is_last last = true -> Forall (fun t => is_last t = false) ts -> wf (ts ++ [last]).
Proof.
  intros Hl H. induction H as [|t ts Ht H IH]; cbn.
  - rewrite Hl. reflexivity.
  - rewrite Ht. destruct (ts ++ [last]) eqn:E; exact IH.
Qed.
Lemma tokens_wf i : exists ts, tokens i ts /\ wf ts.
Proof.
  destruct (lex_all_total i) as (ts & last & s' & H1 & H2 & H3 & _). exists (ts ++ [last]). split; [exists s'; exact H1|apply wf_app; assumption].
Qed.
Lemma tokens_fun i ts ts' : tokens i ts -> tokens i ts' -> ts = ts'.
Proof. intros (s & H) (s' & H'). congruence. Qed.
Lemma parse_eq fok i ts : tokens i ts -> parse fok i =
  match parse_tokens fok ts with POk d _ => Doc d | PErr e _ => Error e | PCrash NilDeref => GoPanic | PCrash _ => Diverges end.
Proof. intros (s & H). unfold parse. rewrite H. reflexivity. Qed.

(** ** C10.  Parse returns on every input: no loop runs for ever and no token is read past EOF/Illegal (either would be
    [Diverges]). *)
Theorem C10_parse_terminates : forall fok (i : bytes), parse fok i <> Diverges.
Proof.
  intros fok i. destruct (tokens_wf i) as (ts & Ht & Hw). rewrite (parse_eq fok i ts Ht).
  pose proof (parse_tokens_sound fok ts Hw) as H. destruct (parse_tokens fok ts) as [d r|e r|c]; try discriminate.
  destruct H as [-> _]. discriminate.
Qed.
Print Assumptions C10_parse_terminates.

Definition anyfloat : bytes -> bool := fun _ => true.
Example C10_nonvacuous : exists d m, parse anyfloat (B "{ a }") = Doc d /\ parse anyfloat (B "{ a ") = Error m.
Proof. eexists _, _. split; vm_compute; reflexivity. Qed.

(** ** C11.  A panic needs the keyword "fragment" at the start of a definition with no Name token after it ... *)
Theorem C11_panic_only_on_dangling_fragment : forall fok i ts, parse fok i = GoPanic -> tokens i ts ->
  exists before f t after, ts = before ++ f :: t :: after /\
    tkind f = KName /\ tlit f = B "fragment" /\ tkind t <> KName.
Proof.
  intros fok i ts Hp Ht. destruct (tokens_wf i) as (ts' & Ht' & Hw). rewrite (tokens_fun _ _ _ Ht' Ht) in Hw. clear ts' Ht'.
  rewrite (parse_eq fok i ts Ht) in Hp. pose proof (parse_tokens_sound fok ts Hw) as H.
  destruct (parse_tokens fok ts) as [d r|e r|c]; try discriminate. destruct H as [_ Hc]. clear Hp Ht.
  clear c. induction Hc as [ts (r & Hk & Hn)|ts d r Hd _ Hc IH].
  - destruct (term_wf _ _ _ _ Hk eq_refl Hw) as [Hwr _]. destruct (wf_cons _ Hwr) as (t & r' & ->). inversion Hk; subst.
    eexists [], (mkTok KName (B "fragment") _ _), t, r'. split; [reflexivity|]. split; [reflexivity|]. split; [reflexivity|].
    intros E. apply (Hn (tlit t) r'). destruct t as [k lit ln cl]. cbn in E. subst k. constructor.
  - assert (Hs : suffix r ts) by (eapply g_def_suffix; eassumption). destruct Hs as (p & ->).
    assert (Hne : r <> []) by (destruct Hc as [? (? & Hx & _)|? ? ? Hx _ _]; inversion Hx; discriminate).
    assert (Hwr : wf r).
    { clear - Hne Hw. induction p as [|t p IHp]; [exact Hw|]. cbn in Hw. destruct (is_last t).
      - destruct p; [cbn in Hw; congruence|discriminate].
      - apply IHp; assumption. }
    destruct (IH Hwr) as (b & f & t & a & -> & H1). exists (p ++ b), f, t, a. split; [apply app_assoc|exact H1].
Qed.
Print Assumptions C11_panic_only_on_dangling_fragment.

(** ... and such a "fragment" does make Parse panic, at the start of the document or after any (lenient) definitions. *)
Theorem C11_dangling_fragment_panics : forall fok i ts, tokens i ts -> panics fok Lenient ts -> parse fok i = GoPanic.
Proof.
  intros fok i ts Ht Hp. destruct (tokens_wf i) as (ts' & Ht' & Hw). rewrite (tokens_fun _ _ _ Ht' Ht) in Hw.
  rewrite (parse_eq fok i ts Ht), (parse_tokens_panics fok Lenient ts Hw Hp). reflexivity.
Qed.
Print Assumptions C11_dangling_fragment_panics.

(** Exactly: Parse panics iff the source is some definitions (of the language it accepts, see C13_language) and then a "fragment" that no
    name follows. *)
Theorem C11_panic_iff : forall fok i ts, tokens i ts -> (parse fok i = GoPanic <-> panics fok Any ts).
Proof.
  intros fok i ts Ht. destruct (tokens_wf i) as (ts' & Ht' & Hw). rewrite (tokens_fun _ _ _ Ht' Ht) in Hw. clear ts' Ht'. rewrite (parse_eq fok i ts Ht). split.
  - intros Hp. pose proof (parse_tokens_sound fok ts Hw) as H. destruct (parse_tokens fok ts) as [d r|e r|c]; try discriminate. destruct H as [_ Hc]. clear Hp Ht Hw i c.
    induction Hc as [ts H|ts d r H Hl _ IH]; [apply pn_now, H|eapply pn_later; eassumption].
  - intros Hp. rewrite (parse_tokens_panics fok Any ts Hw Hp). reflexivity.
Qed.
Print Assumptions C11_panic_iff.

(** The unrestricted claim is false: the source "fragment" panics. *)
Theorem C11_never_panics_refuted : parse anyfloat (B "fragment") = GoPanic /\ parse anyfloat (B "{a} fragment {b}") = GoPanic.
Proof. split; vm_compute; reflexivity. Qed.
Print Assumptions C11_never_panics_refuted.

(** ** C12.  Every document of the June 2018 grammar (hence also of the relaxed one) is accepted, and yields exactly the
    definitions the derivation denotes, in order. *)
Theorem C12_complete : forall fok i ts lv ds, tokens i ts -> lv = June2018 \/ lv = Lenient -> g_document fok lv ts ds ->
  exists d, parse fok i = Doc d /\ doc_defs d = ds.
Proof.
  intros fok i ts lv ds Ht Hlv Hg. destruct (tokens_wf i) as (ts' & Ht' & Hw). rewrite (tokens_fun _ _ _ Ht' Ht) in Hw.
  destruct (parse_tokens_complete fok lv ts ds Hw Hg) as (r & Hr). rewrite (parse_eq fok i ts Ht), Hr. eexists. split; [reflexivity|].
  destruct (fold_left _ ds _); reflexivity.
Qed.
Print Assumptions C12_complete.

(** From the text itself: a source that lexes (C02) to the tokens of a document is accepted. *)
Theorem C12_complete_text : forall fok cs ts ds, clean cs -> tokens (utf8s cs) ts -> g_document fok June2018 ts ds ->
  exists d, parse fok (utf8s cs) = Doc d /\ doc_defs d = ds.
Proof. intros fok cs ts ds _ Ht Hg. eapply C12_complete; [exact Ht|left; reflexivity|exact Hg]. Qed.

(** The grammar (with the longest-match rule for optional blocks) is unambiguous on lexer output. *)
Theorem C12_unambiguous : forall fok i ts lv ds ds', tokens i ts -> lv = June2018 \/ lv = Lenient ->
  g_document fok lv ts ds -> g_document fok lv ts ds' -> ds = ds'.
Proof.
  intros fok i ts lv ds ds' Ht Hlv H H'. destruct (C12_complete _ _ _ _ _ Ht Hlv H) as (d & Hd & <-).
  destruct (C12_complete _ _ _ _ _ Ht Hlv H') as (d' & Hd' & <-). congruence.
Qed.
Print Assumptions C12_unambiguous.

(** ** C13.  An accepted source is, up to its EOF token, a document of the grammar that denotes the returned definitions.
    The grammar level is [Any] (June 2018 plus the relaxations listed in Grammar.v); without a broken list type in the
    result it is [Lenient]. *)
Theorem C13_sound : forall fok i d, parse fok i = Doc d ->
  exists ts, tokens i ts /\ g_document fok Any ts (doc_defs d) /\
    (Forall (fun x => body_types closed_type (def_body x)) (doc_defs d) <-> g_document fok Lenient ts (doc_defs d)).
Proof.
  intros fok i d Hp. destruct (tokens_wf i) as (ts & Ht & Hw). rewrite (parse_eq fok i ts Ht) in Hp.
  pose proof (parse_tokens_sound fok ts Hw) as H. destruct (parse_tokens fok ts) as [d' r|e r|c]; try discriminate; [|destruct c; discriminate].
  injection Hp as ->. destruct H as (e & -> & He & Hg & _). exists ts. split; [exact Ht|].
  assert (Hdoc : g_document fok Any ts (doc_defs d)) by (exists e; split; assumption). split; [exact Hdoc|]. split.
  - intros Hc. apply closed_lenient; assumption.
  - intros Hl. eapply lenient_closed; [|exact Hl]. discriminate.
Qed.
Print Assumptions C13_sound.

(** In particular nothing after an accepted document is skipped, and no Illegal token is accepted. *)
Theorem C13_all_consumed : forall fok i d ts, parse fok i = Doc d -> tokens i ts ->
  Forall (fun t => tkind t <> KIllegal) ts /\ exists pre e, ts = pre ++ [e] /\ tkind e = KEOF.
Proof.
  intros fok i d ts Hp Ht. destruct (C13_sound fok i d Hp) as (ts' & Ht' & (e & He & Hg) & _). rewrite (tokens_fun _ _ _ Ht' Ht) in Hg.
  destruct Ht as (s & Ht). destruct (lex_all_total i) as (pre & last & s' & H1 & H2 & H3 & _). rewrite Ht in H1. injection H1 as -> ->.
  assert (Hs : suffix [e] (pre ++ [last])).
  { clear - Hg. remember [e] as r. revert Heqr. induction Hg as [ts dd r H|ts dd r1 l r H _ H2 IH]; intros ->.
    - eapply g_def_suffix; eassumption.
    - eapply suffix_trans; [apply IH; reflexivity|eapply g_def_suffix; eassumption]. }
  destruct Hs as (p & Hs). apply app_inj_tail in Hs. destruct Hs as [_ ->]. split; [|exists pre, e; auto].
  apply Forall_app. split; [|constructor; [congruence|constructor]]. eapply Forall_impl; [|exact H3].
  intros t Hn E. unfold is_last in Hn. rewrite E in Hn. discriminate.
Qed.
Print Assumptions C13_all_consumed.

(** Together: on sources without broken list types Parse accepts exactly the relaxed grammar. *)
Theorem C13_exact : forall fok i ts ds, tokens i ts ->
  (g_document fok Lenient ts ds <->
   exists d, parse fok i = Doc d /\ doc_defs d = ds /\ Forall (fun x => body_types closed_type (def_body x)) ds).
Proof.
  intros fok i ts ds Ht. split.
  - intros Hg. destruct (C12_complete fok i ts Lenient ds Ht (or_intror eq_refl) Hg) as (d & Hd & Hds).
    exists d. split; [exact Hd|]. split; [exact Hds|]. eapply lenient_closed; [|exact Hg]. discriminate.
  - intros (d & Hd & <- & Hc). destruct (C13_sound fok i d Hd) as (ts' & Ht' & _ & Hg). rewrite (tokens_fun _ _ _ Ht' Ht) in Hg. apply Hg. exact Hc.
Qed.
Print Assumptions C13_exact.

(** ... and without any restriction it accepts exactly the level [Any]: the relaxed grammar plus the two broken forms of a list type, each
    with what may follow it. *)
Theorem C13_language : forall fok i ts ds, tokens i ts -> (g_document fok Any ts ds <-> exists d, parse fok i = Doc d /\ doc_defs d = ds).
Proof.
  intros fok i ts ds Ht. split.
  - intros Hg. destruct (tokens_wf i) as (ts' & Ht' & Hw). rewrite (tokens_fun _ _ _ Ht' Ht) in Hw.
    destruct (parse_tokens_complete fok Any ts ds Hw Hg) as (r & Hr). rewrite (parse_eq fok i ts Ht), Hr. eexists. split; [reflexivity|]. destruct (fold_left _ ds _); reflexivity.
  - intros (d & Hd & <-). destruct (C13_sound fok i d Hd) as (ts' & Ht' & Hg & _). rewrite (tokens_fun _ _ _ Ht' Ht) in Hg. exact Hg.
Qed.
Print Assumptions C13_language.
(** Both broken forms are met by sources that are accepted. *)
Example C13_language_nonvacuous : (exists d, parse anyfloat (B "query ($a: [) { b }") = Doc d) /\ (exists d, parse anyfloat (B "union U = [[A type T") = Doc d).
Proof. split; eexists; vm_compute; reflexivity. Qed.

(** ** C14.  The counters of a parsed document are the true counts; TypeExtensions counts the distinct extended names. *)
Definition count (p : body -> bool) (d : document) : nat := List.length (filter (fun x => p (def_body x)) (doc_defs d)).
Definition extended_name (d : document) (n : bytes) : Prop :=
  exists x t, In x (doc_defs d) /\ def_body x = XType t /\ t_name t = n.

Lemma counts_fold bs : forall c, let c' := fold_left count_def bs c in
  let n p := List.length (filter p bs) in
  c_ops c' = (c_ops c + n (fun b => match b with DOp _ => true | _ => false end))%nat /\
  c_frags c' = (c_frags c + n (fun b => match b with DFrag _ => true | _ => false end))%nat /\
  c_dirdefs c' = (c_dirdefs c + n (fun b => match b with DDir _ => true | _ => false end))%nat /\
  c_schemas c' = (c_schemas c + n (fun b => match b with DSchema _ => true | _ => false end))%nat /\
  c_types c' = (c_types c + n (fun b => match b with DType _ => true | _ => false end))%nat /\
  c_schemaexts c' = (c_schemaexts c + n (fun b => match b with XSchema _ => true | _ => false end))%nat /\
  (NoDup (c_exts c) -> NoDup (c_exts c')) /\
  (forall m, In m (c_exts c') <-> In m (c_exts c) \/ exists t, In (XType t) bs /\ t_name t = m).
Proof.
  induction bs as [|b bs IH]; intros c; cbn zeta.
  - cbn. repeat match goal with |- _ /\ _ => split; [rewrite ?Nat.add_0_r; auto|] end.
    intros m. split; [auto|]. intros [H|(t & [] & _)]. exact H.
  - cbn [fold_left]. specialize (IH (count_def c b)). cbn zeta in IH. destruct IH as (H1 & H2 & H3 & H4 & H5 & H6 & H7 & H8).
    rewrite H1, H2, H3, H4, H5, H6. clear H1 H2 H3 H4 H5 H6.
    assert (Hex : NoDup (c_exts c) -> NoDup (c_exts (count_def c b))).
    { destruct c; destruct b; cbn; auto. destruct (inb _ _) eqn:E; [auto|]. intros Hn. constructor; [|exact Hn]. apply inb_notIn. exact E. }
    assert (Hin : forall m, In m (c_exts (count_def c b)) <-> In m (c_exts c) \/ exists t, b = XType t /\ t_name t = m).
    { intros m. destruct c; destruct b; cbn; try (split; [auto|intros [H|(? & E & _)]; [exact H|discriminate E]]).
      destruct (inb _ _) eqn:E.
      - apply inb_In in E. split; [auto|]. intros [H|(t' & Ht & <-)]; [exact H|]. injection Ht as <-. exact E.
      - cbn. split; [intros [<-|H]; [right; eauto|auto]|]. intros [H|(t' & Ht & <-)]; [auto|]. injection Ht as <-. auto. }
    repeat match goal with |- _ /\ _ => split; [first [solve [auto] | destruct c, b; cbn; lia]|] end.
    intros m. rewrite H8, Hin. cbn [In]. split.
    + intros [[H|(t & -> & Ht)]|(t & Ht & Hm)]; eauto 6.
    + intros [H|(t & [->|Ht] & Hm)]; eauto 6.
Qed.

Theorem C14_counters : forall fok i d, parse fok i = Doc d ->
  n_ops d = count (fun b => match b with DOp _ => true | _ => false end) d /\
  n_frags d = count (fun b => match b with DFrag _ => true | _ => false end) d /\
  n_dirdefs d = count (fun b => match b with DDir _ => true | _ => false end) d /\
  n_schemas d = count (fun b => match b with DSchema _ => true | _ => false end) d /\
  n_types d = count (fun b => match b with DType _ => true | _ => false end) d /\
  n_schemaexts d = count (fun b => match b with XSchema _ => true | _ => false end) d /\
  exists names, NoDup names /\ (forall n, In n names <-> extended_name d n) /\ n_typeexts d = List.length names.
Proof.
  intros fok i d Hp. destruct (tokens_wf i) as (ts & Ht & Hw). rewrite (parse_eq fok i ts Ht) in Hp.
  pose proof (parse_tokens_sound fok ts Hw) as H. destruct (parse_tokens fok ts) as [d' r|e r|c]; try discriminate; [|destruct c; discriminate].
  injection Hp as ->. destruct H as (e & _ & _ & _ & Hd).
  destruct (counts_fold (map def_body (doc_defs d)) (mkC 0 0 0 0 0 0 [])) as (H1 & H2 & H3 & H4 & H5 & H6 & H7 & H8). cbn zeta in *.
  assert (Hc : forall p, List.length (filter p (map def_body (doc_defs d))) = count p d).
  { intros p. unfold count. generalize (doc_defs d). intros l. clear. induction l as [|x l IH]; cbn; [reflexivity|].
    destruct (p (def_body x)); cbn; [f_equal|]; exact IH. }
  rewrite Hc in H1, H2, H3, H4, H5, H6.
  destruct (fold_left count_def (map def_body (doc_defs d)) (mkC 0 0 0 0 0 0 [])) as [o f dd s t x ex]. cbn in *.
  assert (Hf : n_ops d = o /\ n_frags d = f /\ n_dirdefs d = dd /\ n_schemas d = s /\ n_types d = t /\ n_schemaexts d = x /\ n_typeexts d = List.length ex)
    by (rewrite Hd; cbn; auto 10).
  destruct Hf as (-> & -> & -> & -> & -> & -> & ->). repeat (split; [assumption|]).
  exists ex. split; [apply H7; constructor|]. split; [|reflexivity]. intros n. rewrite H8. split.
  - intros [[]|(t' & Hin & Hn)]. apply in_map_iff in Hin. destruct Hin as (y & Hy & Hin). exists y, t'. auto.
  - intros (y & t' & Hin & Hy & Hn). right. exists t'. split; [|exact Hn]. apply in_map_iff. eauto.
Qed.
Print Assumptions C14_counters.

(** ** C09, the parser's half: sources with the same token kinds and literals have the same outcome; only the recorded
    positions of the definitions can differ. *)
Definition same_outcome (x y : result) : Prop :=
  match x, y with
  | Doc d, Doc d' => map def_body (doc_defs d) = map def_body (doc_defs d') /\
      n_ops d = n_ops d' /\ n_frags d = n_frags d' /\ n_dirdefs d = n_dirdefs d' /\ n_schemas d = n_schemas d' /\
      n_types d = n_types d' /\ n_schemaexts d = n_schemaexts d' /\ n_typeexts d = n_typeexts d'
  | Error _, Error _ | GoPanic, GoPanic => True
  | _, _ => False
  end.
Lemma shape_same ts ts' : map shape ts = map shape ts' -> Forall2 weak ts ts'.
Proof.
  revert ts'. induction ts as [|[k lit l c] ts IH]; intros [|[k' lit' l' c'] ts'] H; try discriminate; constructor.
  - cbn [map] in H. assert (Hh := f_equal (hd (KEOF, [])) H). unfold shape in Hh. cbn in Hh. pose proof (f_equal fst Hh) as E1. pose proof (f_equal snd Hh) as E2. cbn in E1, E2. split; [exact E1|].
    cbn. intros Hi. subst k'. destruct k; (congruence || exact E2).
  - apply IH. exact (f_equal (@tl _) H).
Qed.
Lemma parse_same fok i i' ts ts' s s' : lex_all i = Ok ts s -> lex_all i' = Ok ts' s' -> map shape ts = map shape ts' ->
  same_outcome (parse fok i) (parse fok i').
Proof.
  intros H H' Hs. pose proof (C10_parse_terminates fok i) as Ht. pose proof (C10_parse_terminates fok i') as Ht'.
  rewrite (parse_eq fok i ts) in * by (exists s; exact H). rewrite (parse_eq fok i' ts') in * by (exists s'; exact H').
  pose proof (parse_positions fok ts ts' (shape_same _ _ Hs)) as Hp.
  destruct (parse_tokens fok ts) as [d r|e r|c], (parse_tokens fok ts') as [d' r'|e' r'|c']; try contradiction; cbn; auto.
  subst c'. destruct c; cbn; auto.
Qed.
Theorem C09_same_document : forall fok cs cs' toks toks',
  clean cs -> clean cs' -> regular_blocks cs -> regular_blocks cs' ->
  tokens_of cs toks -> tokens_of cs' toks' -> map ssrc toks = map ssrc toks' ->
  same_outcome (parse fok (utf8s cs)) (parse fok (utf8s cs')).
Proof.
  intros fok cs cs' toks toks' H1 H2 H3 H4 H5 H6 H7.
  destruct (C09_only_lexemes_matter cs cs' toks toks' H1 H2 H3 H4 H5 H6 H7) as (ts & s & ts' & s' & Hl & Hl' & Hs).
  eapply parse_same; eassumption.
Qed.
Print Assumptions C09_same_document.
Theorem C09_insertion_same_document : forall fok a b ta tb rest g,
  lexing [] (a ++ b) ta b -> (a = [] \/ exists k ta', ta = ta' ++ [k] /\ sbefore k ++ ssrc k = a) ->
  lexing a b tb rest -> rest = [] \/ stuck rest -> ignored_text g ->
  clean (a ++ g ++ b) -> regular_blocks (a ++ b) -> regular_blocks (a ++ g ++ b) ->
  same_outcome (parse fok (utf8s (a ++ b))) (parse fok (utf8s (a ++ g ++ b))).
Proof.
  intros fok a b ta tb rest g H1 H2 H3 H4 H5 H6 H7 H8.
  destruct (C09_insertion a b ta tb rest g H1 H2 H3 H4 H5 H6 H7 H8) as (ts & s & ts' & s' & Hl & Hl' & Hs).
  eapply parse_same; eassumption.
Qed.
Print Assumptions C09_insertion_same_document.

(** ** Examples: the hypotheses are met, and the claims that fail. *)
(** A June 2018 derivation of a whole document (C12), built constructor by constructor; its source is lexed by the model. *)
Definition tk (k : kind) (s : string) (l : nat) (c : Z) : token := mkTok k (B s) l c.
Definition ex_src : bytes := B "query Q($a:[Int!]=1)@d{b:a(x:$a){...on T{c}...F}}".
Definition ex_toks : list token :=
  match lex_all ex_src with Ok ts _ => ts | _ => [] end.
Definition ex_defs : list definition :=
  [mkDef 1 1 (DOp (mkOp Query (B "Q") [mkVar (B "a") (TList (TNamed (B "Int") true) false) (Some (VInt 1))]
     [mkDir (B "d") [] LQuery]
     [SField (B "b") (B "a") [mkArg (B "x") (VVar (B "a"))] []
        [SInline (Some (TNamed (B "T") false)) [] [SField [] (B "c") [] [] []]; SSpread (B "F") []]]))].
Ltac ex_t := solve [apply terminal_intro].
Example C12_nonvacuous : tokens ex_src ex_toks /\ g_document anyfloat June2018 ex_toks ex_defs.
Proof.
  split; [unfold ex_toks; eexists; vm_compute; reflexivity|].
  set (ts := ex_toks). vm_compute in ts. subst ts. eexists (mkTok KEOF [] _ _). split; [reflexivity|].
  unfold ex_defs. eapply ds_one; [|intros []]. apply (def_intro anyfloat June2018 (mkTok KName (B "query") 1 1)). apply b_op.
  eapply op_long; [apply ok_query; ex_t|apply on_some; ex_t| | |].
  - eapply vs_some; [ex_t| |ex_t]. split; [|discriminate]. eapply many_cons; [|apply many_nil].
    eapply vd_intro; [ex_t|ex_t|ex_t| |].
    + eapply ty_list; [ex_t|eapply ty_named_nn; ex_t|ex_t].
    + eapply df_some; [ex_t|]. eapply v_int; [ex_t| |split; reflexivity || discriminate].
      apply id_pos. apply (dd_one "1"%char). vm_compute. split; discriminate.
  - eapply many_cons; [|apply many_nil]. eapply dir_intro; [ex_t|ex_t|apply args_none].
  - eapply ss_intro; [ex_t| |discriminate|ex_t]. eapply many_cons; [|apply many_nil].
    eapply sel_field; [eapply al_some; ex_t| |apply many_nil|].
    + eapply args_some; [ex_t| |ex_t|left; discriminate]. eapply many_cons; [|apply many_nil]. eapply arg_intro; [ex_t|ex_t|].
      eapply v_var; [left; reflexivity|ex_t|ex_t].
    + apply os_some. eapply ss_intro; [ex_t| |discriminate|ex_t]. eapply many_cons; [|eapply many_cons; [|apply many_nil]].
      * eapply sel_inline; [ex_t|apply oc_some; eapply cond_intro; [ex_t|apply nm_plain; ex_t]|apply many_nil|].
        eapply ss_intro; [ex_t| |discriminate|ex_t]. eapply many_cons; [|apply many_nil].
        eapply sel_field; [apply al_none; ex_t|apply args_none|apply many_nil|apply os_none].
      * eapply sel_spread; [ex_t|ex_t|discriminate|apply many_nil].
Qed.
Example C13_nonvacuous : exists d, parse anyfloat ex_src = Doc d /\ doc_defs d = ex_defs /\
  Forall (fun x => body_types closed_type (def_body x)) ex_defs.
Proof.
  destruct C12_nonvacuous as [H1 H2]. destruct (C12_complete _ _ _ _ _ H1 (or_introl eq_refl) H2) as (d & Hd & He).
  exists d. split; [exact Hd|]. split; [exact He|]. eapply lenient_closed; [|exact H2]. discriminate.
Qed.
Example C14_nonvacuous : exists d, parse anyfloat
   (B "extend type A {a:B} extend type A {b:B} extend enum E {V} type T query Q{a} fragment F on T{a} {b}") = Doc d /\
  n_typeexts d = 2 /\ n_ops d = 2 /\ n_frags d = 1 /\ n_types d = 1.
Proof. eexists. split; [vm_compute; reflexivity|]. cbn. auto. Qed.

(** C13 as first stated (every accepted source is a June 2018 document) is false, in each of these ways.  [june i]: the
    tokens of [i] form a June 2018 document. *)
Definition june (i : bytes) : Prop := exists ts ds, tokens i ts /\ g_document anyfloat June2018 ts ds.
Definition accepted (i : bytes) : Prop := exists d, parse anyfloat i = Doc d.
Ltac ginv_step :=
  match goal with
  | H : terminal _ ?l _ _ |- _ =>
      inversion H; clear H; subst;
      repeat match goal with E : B _ = _ |- _ => vm_compute in E; try discriminate E end
  | H : _ /\ _ |- _ => destruct H
  | H : exists _, _ |- _ => destruct H
  | H : lenient June2018 |- _ => exfalso; apply H; reflexivity
  | H : June2018 = Any |- _ => discriminate H
  | H : _ \/ _ |- _ => destruct H
  | H : [] <> [] |- _ => congruence
  end.
Ltac gi H := inversion H; clear H; subst.
Ltac ginv_rel :=
  match goal with
  | H : g_document _ _ _ _ |- _ => unfold g_document in H
  | H : g_defs _ _ (_ :: _) _ _ |- _ => gi H
  | H : g_def _ _ (_ :: _) _ _ |- _ => gi H
  | H : g_body _ _ (_ :: _) _ _ |- _ => gi H
  | H : g_desc (_ :: _) _ _ |- _ => gi H
  | H : g_op _ _ (_ :: _) _ _ |- _ => gi H
  | H : g_opkind (_ :: _) _ _ |- _ => gi H
  | H : g_opt_name (_ :: _) _ _ |- _ => gi H
  | H : g_frag _ _ (_ :: _) _ _ |- _ => gi H
  | H : g_schema _ _ (_ :: _) _ _ |- _ => gi H
  | H : g_schemaext _ _ (_ :: _) _ _ |- _ => gi H
  | H : g_tydef _ _ _ (_ :: _) _ _ |- _ => gi H
  | H : g_dirdef _ _ _ (_ :: _) _ _ |- _ => gi H
  | H : g_vardefs _ _ (_ :: _) _ _ |- _ => gi H
  | H : g_vardef _ _ (_ :: _) _ _ |- _ => gi H
  | H : g_type _ (_ :: _) _ _ |- _ => gi H
  | H : g_named _ (_ :: _) _ _ |- _ => gi H
  | H : g_member _ (_ :: _) _ _ |- _ => gi H
  | H : g_cond _ (_ :: _) _ _ |- _ => gi H
  | H : g_opt_cond _ (_ :: _) _ _ |- _ => gi H
  | H : g_default _ _ (_ :: _) _ _ |- _ => gi H
  | H : g_value _ _ _ (_ :: _) _ _ |- _ => gi H
  | H : g_args _ _ _ (_ :: _) _ _ |- _ => gi H
  | H : g_arg _ _ _ (_ :: _) _ _ |- _ => gi H
  | H : g_dirs _ _ _ _ (_ :: _) _ _ |- _ => unfold g_dirs in H
  | H : g_dir _ _ _ _ (_ :: _) _ _ |- _ => gi H
  | H : g_selset _ _ (_ :: _) _ _ |- _ => gi H
  | H : g_opt_selset _ _ (_ :: _) _ _ |- _ => gi H
  | H : g_sel _ _ (_ :: _) _ _ |- _ => gi H
  | H : g_alias (_ :: _) _ _ |- _ => gi H
  | H : g_implements _ (_ :: _) _ _ |- _ => gi H
  | H : g_members _ (_ :: _) _ _ |- _ => gi H
  | H : g_argdefs _ _ (_ :: _) _ _ |- _ => gi H
  | H : g_dirloc _ (_ :: _) _ _ |- _ => gi H
  | H : maybe _ (_ :: _) _ |- _ => destruct H; [subst|]
  | H : many _ (_ :: _) _ _ |- _ => gi H
  | H : many1 _ (_ :: _) _ _ |- _ => unfold many1 in H
  | H : sep1 _ _ (_ :: _) _ _ |- _ => gi H
  | H : g_block _ (_ :: _) _ _ |- _ => gi H
  | H : adds_something _ |- _ => unfold adds_something in H; cbn in H
  end.
Ltac refute_june :=
  match goal with |- ~ june ?i =>
    intros (ts & ds & (s & Ht) & Hg); vm_compute in Ht;
    apply (f_equal (fun x => match x with Ok ts _ => ts | _ => [] end)) in Ht; cbv beta iota in Ht; subst ts;
    repeat (first [ginv_step | ginv_rel]); try solve [vm_compute in *; congruence]
  end.
Theorem C13_june2018_refuted : forall i, In i (map B
   ["query($a:[){b}"; "fragment F on T!{a}"; "type A implements [I]"; "{a()}"; "query($a:Int=$b){c}"; "extend type A";
    "directive @d on VARIABLE_DEFINITION"]%string ++ [B """"" schema{query:Q}"]) -> accepted i /\ ~ june i.
Proof.
  intros i Hi. cbn [map app In] in Hi. repeat destruct Hi as [<-|Hi]; [..|contradiction];
  (split; [eexists; vm_compute; reflexivity|]).
  all: refute_june.
Qed.
Print Assumptions C13_june2018_refuted.
