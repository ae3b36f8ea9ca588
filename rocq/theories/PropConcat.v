(** * PropConcat: C51, sources can be concatenated. *)
From Verif Require Import Base AST Utf8 Lexer LexSpec LexAgree LexMain LexProps Parser Grammar GrammarProps GrammarFrame PropLex PropParse.

(** ** Lexing *)
Lemma lexing_extend pre cs ts rest : lexing pre cs ts rest -> rest = [] -> forall x, lexing pre (cs ++ 10%Z :: x) ts (10%Z :: x).
Proof.
  induction 1 as [pre cs|pre c t ts rest Hi H IH|pre b t ts rest Hb Hle H IH|pre k w lit stop t ts rest Hlex He H IH]; intros E x.
  - subst. constructor.
  - cbn [app]. apply lg_ignored; auto.
  - cbn [app]. rewrite <- app_assoc. apply lg_comment; auto. destruct t; [left; reflexivity|exact Hle].
  - rewrite <- app_assoc. eapply lg_token; eauto. destruct t; [|exact He]. cbn [app ends]. eapply lexeme_stop; [exact Hlex|]. left. unfold ignored_char. lia.
Qed.
Definition behind (a : list Z) (k : stok) : stok := mkStok (skind k) (slit k) (a ++ sbefore k) (ssrc k).
Lemma lexing_behind a pre cs ts rest : lexing pre cs ts rest -> lexing (a ++ pre) cs (map (behind a) ts) rest.
Proof.
  induction 1 as [pre cs|pre c t ts rest Hi H IH|pre b t ts rest Hb Hle H IH|pre k w lit stop t ts rest Hlex He H IH]; cbn [map].
  - constructor.
  - apply lg_ignored; [exact Hi|]. rewrite <- app_assoc. exact IH.
  - apply lg_comment; [exact Hb|exact Hle|]. rewrite <- app_assoc. exact IH.
  - unfold behind at 1. cbn [skind slit sbefore ssrc]. eapply lg_token; [exact Hlex|exact He|]. rewrite <- app_assoc. exact IH.
Qed.
Lemma tokens_concat cs1 cs2 k1 k2 : tokens_of cs1 k1 -> tokens_of cs2 k2 -> tokens_of (cs1 ++ 10%Z :: cs2) (k1 ++ map (behind (cs1 ++ [10%Z])) k2).
Proof.
  intros H1 H2. unfold tokens_of in *. eapply (lexing_app [] cs1 (10%Z :: cs2)); [apply (lexing_extend _ _ _ _ H1 eq_refl)|reflexivity|].
  cbn [app]. apply lg_ignored; [unfold ignored_char; lia|]. pose proof (lexing_behind (cs1 ++ [10%Z]) _ _ _ _ H2) as H. rewrite app_nil_r in H. exact H.
Qed.
(** Positions behind a line feed, without carriage returns. *)
Lemma line_count_app a b : Forall (fun c => c <> 13%Z) a -> line_count (a ++ b) = line_count a + line_count b.
Proof.
  induction 1 as [|c a Hc H IH]; [reflexivity|]. cbn [app line_count]. destruct (Z.eqb_spec c 10); [rewrite IH; reflexivity|]. destruct (Z.eqb_spec c 13); [contradiction|]. exact IH.
Qed.
Lemma last_line_app a b cur : last_line (a ++ 10%Z :: b) cur = last_line b [].
Proof. revert cur. induction a as [|c a IH]; intros cur; [reflexivity|]. cbn [app last_line]. destruct ((c =? 10)%Z || (c =? 13)%Z); apply IH. Qed.

(** A source the positions of whose tokens are the true ones (C07). *)
Definition plain (cs : list Z) : Prop := Forall (fun c => c <> 13%Z) cs /\ ~ contains triple cs /\ ~ exists a, cs = a ++ [34%Z; 34%Z].
Lemma plain_concat cs1 cs2 : plain cs1 -> plain cs2 -> plain (cs1 ++ 10%Z :: cs2).
Proof.
  intros (N1 & T1 & D1) (N2 & T2 & D2). split; [|split].
  - apply Forall_app. split; [exact N1|]. constructor; [lia|exact N2].
  - intros (a & b & E). apply app_eq_app in E. destruct E as (l & [[E1 E2]|[E1 E2]]).
    + (* the quotes start in cs1 *) subst cs1. destruct l as [|x l]; [cbn in E2; discriminate E2|]. cbn in E2. injection E2 as <- E2. destruct l as [|x l]; [discriminate E2|]. cbn in E2. injection E2 as <- E2.
      destruct l as [|x l]; [discriminate E2|]. cbn in E2. injection E2 as <- E2. apply T1. exists a, l. reflexivity.
    + destruct l as [|x l]; [discriminate E2|]. cbn in E2. injection E2 as <- E2. apply T2. exists l, b. exact E2.
  - intros (a & E). apply app_eq_app in E. destruct E as (l & [[E1 E2]|[E1 E2]]).
    + destruct l as [|x [|y [|z l]]]; discriminate E2.
    + destruct l as [|x l]; [discriminate E2|]. cbn in E2. injection E2 as <- E2. apply D2. exists l. exact E2.
Qed.
Lemma lexed fok cs d : clean cs -> regular_blocks cs -> parse fok (utf8s cs) = Doc d -> exists ts e toks, tokens (utf8s cs) (ts ++ [e]) /\ tkind e = KEOF /\ tokens_of cs toks /\ Forall2 tok_is ts toks.
Proof.
  intros Hc Hr Hp. destruct (lex_main cs Hc Hr) as (ts & e & s & toks & body & rest & H1 & H2 & H3 & H4 & H5 & _).
  assert (Ht : tokens (utf8s cs) (ts ++ [e])) by (exists s; exact H1). exists ts, e, toks. split; [exact Ht|].
  destruct (C13_all_consumed fok _ _ _ Hp Ht) as [Hi _]. apply Forall_app in Hi. destruct Hi as [_ Hi]. inversion Hi; subst.
  destruct H5 as [(K & _ & ->)|(K & _)]; [|contradiction]. split; [exact K|]. split; [exact H2|exact H4].
Qed.
Lemma placed cs ts e toks : clean cs -> regular_blocks cs -> tokens (utf8s cs) (ts ++ [e]) -> tokens_of cs toks -> tkind e = KEOF ->
  Forall2 tok_is ts toks /\ (Forall (fun c => c <> 13%Z) cs -> Forall2 tok_at ts toks) /\ (plain cs -> Forall2 tok_col ts toks).
Proof.
  intros Hc Hr (s & Ht) Hk He. destruct (lex_main cs Hc Hr) as (ts' & e' & s' & toks' & body & rest & H1 & H2 & H3 & H4 & H5 & H6 & H7 & _).
  rewrite Ht in H1. injection H1 as E <-. apply app_inj_tail in E. destruct E as [<- <-].
  assert (F : final rest) by (destruct H5 as [(_ & _ & ->)|(_ & H)]; [left; reflexivity|right; exact H]).
  destruct (lexing_unique _ _ _ _ H2 F Hc Hr _ _ Hk (or_introl eq_refl)) as [-> ->]. split; [exact H4|]. split; [intros N; apply H6, N|].
  intros (N & T & D). apply H7; assumption.
Qed.
Lemma Forall2_join {A B C} (P : A -> C -> Prop) (R : B -> C -> Prop) (S : A -> B -> Prop) l1 l2 l3 :
  Forall2 P l1 l3 -> Forall2 R l2 l3 -> (forall a b c, P a c -> R b c -> S a b) -> Forall2 S l1 l2.
Proof. intros H1. revert l2. induction H1 as [|a c l1 l3 H H1 IH]; intros l2 H2 HS; inversion H2; subst; constructor; eauto. Qed.
Lemma Forall2_length {A B} (P : A -> B -> Prop) l l' : Forall2 P l l' -> List.length l = List.length l'.
Proof. induction 1; cbn; congruence. Qed.
Lemma Forall2_map_r {A B C} (f : B -> C) (P : A -> C -> Prop) l l' : Forall2 P l (map f l') <-> Forall2 (fun a b => P a (f b)) l l'.
Proof. split; revert l'; induction l as [|a l IH]; intros [|b l'] H; inversion H; subst; constructor; auto. Qed.
Lemma Forall2_both {A B} (P R : A -> B -> Prop) l l' : Forall2 P l l' -> Forall2 R l l' -> Forall2 (fun a b => P a b /\ R a b) l l'.
Proof. intros H. induction H; intros H2; inversion H2; subst; constructor; auto. Qed.
Lemma g_defs_app fok lv ts1 ds1 mid ds2 r : g_defs fok lv ts1 ds1 mid -> g_defs fok lv mid ds2 r -> g_defs fok lv ts1 (ds1 ++ ds2) r.
Proof. induction 1; intros H2; cbn [app]; eapply ds_more; eauto. Qed.

Section Concat.
Variable fok : bytes -> bool.
Variables cs1 cs2 : list Z.
Notation cs := (cs1 ++ 10%Z :: cs2).
Hypothesis (C1 : clean cs1) (C2 : clean cs2) (Hr : regular_blocks cs).
Definition no_cr (x : list Z) : Prop := Forall (fun c => c <> 13%Z) x.
(** token of one source against the same token in the concatenation *)
Definition first (t t' : token) : Prop := face t' = face t /\ (no_cr cs -> tline t' = tline t) /\ (plain cs1 -> plain cs2 -> tcol t' = tcol t).
Definition second (t t' : token) : Prop := face t' = face t /\ (no_cr cs -> tline t' = line_count (cs1 ++ [10%Z]) + tline t) /\ (plain cs1 -> plain cs2 -> tcol t' = tcol t).

Lemma concat_clean : clean cs.
Proof. apply Forall_app. split; [exact C1|]. constructor; [split; [unfold scalar; lia|lia]|exact C2]. Qed.
Lemma concat_tokens d1 d2 : parse fok (utf8s cs1) = Doc d1 -> parse fok (utf8s cs2) = Doc d2 ->
  exists p1 e1 p2 e2 k2 q1 q2 e, tokens (utf8s cs1) (p1 ++ [e1]) /\ tokens (utf8s cs2) (p2 ++ [e2]) /\ tkind e1 = KEOF /\ tkind e2 = KEOF /\
    tokens_of cs2 k2 /\ Forall2 tok_is p2 k2 /\
    tokens (utf8s cs) (q1 ++ q2 ++ [e]) /\ tkind e = KEOF /\ Forall2 first p1 q1 /\ Forall2 second p2 q2.
Proof.
  intros P1 P2. pose proof (regular_prefix _ _ Hr) as R1. assert (R2 : regular_blocks cs2) by (apply (regular_app (cs1 ++ [10%Z])); rewrite <- app_assoc; exact Hr).
  destruct (lexed fok cs1 d1 C1 R1 P1) as (p1 & e1 & k1 & T1 & E1 & K1 & _). destruct (lexed fok cs2 d2 C2 R2 P2) as (p2 & e2 & k2 & T2 & E2 & K2 & _).
  pose proof (tokens_concat _ _ _ _ K1 K2) as K. destruct (lex_main cs concat_clean Hr) as (ts & e & s & toks & body & rest & H1 & H2 & _ & H4 & H5 & _).
  assert (F : final rest) by (destruct H5 as [(_ & _ & ->)|(_ & H)]; [left; reflexivity|right; exact H]).
  destruct (lexing_unique _ _ _ _ H2 F concat_clean Hr _ _ K (or_introl eq_refl)) as [-> ->].
  assert (E : tkind e = KEOF) by (destruct H5 as [(E & _)|(_ & [Hs _])]; [exact E|congruence]).
  assert (T : tokens (utf8s cs) (ts ++ [e])) by (exists s; exact H1).
  destruct (placed _ _ _ _ C1 R1 T1 K1 E1) as (I1 & L1 & O1). destruct (placed _ _ _ _ C2 R2 T2 K2 E2) as (I2 & L2 & O2).
  destruct (placed _ _ _ _ concat_clean Hr T K E) as (I & L & O).
  pose proof I as Isp. apply Forall2_app_inv_r in Isp. destruct Isp as (q1 & q2 & J1 & J2 & ->).
  exists p1, e1, p2, e2, k2, q1, q2, e. rewrite <- app_assoc in T. do 8 (split; [assumption|]).
  assert (Sp : forall P : token -> stok -> Prop, Forall2 P (q1 ++ q2) (k1 ++ map (behind (cs1 ++ [10%Z])) k2) -> Forall2 P q1 k1 /\ Forall2 (fun t k => P t (behind (cs1 ++ [10%Z]) k)) q2 k2).
  { intros P HP. assert (Len : List.length q1 = List.length k1) by (eapply Forall2_length, J1). clear - HP Len. revert k1 HP Len. induction q1 as [|t q1 IH]; intros [|k k1] HP Len; try discriminate.
    - split; [constructor|]. cbn [app] in HP. rewrite Forall2_map_r in HP. exact HP.
    - cbn [app] in HP. inversion HP; subst. destruct (IH k1) as [A1 A2]; [assumption|cbn in Len; lia|]. split; [constructor; assumption|exact A2]. }
  assert (N1 : no_cr cs -> no_cr cs1) by (intros N; apply Forall_app in N; tauto).
  assert (N2 : no_cr cs -> no_cr cs2) by (intros N; apply Forall_app in N; destruct N as [_ N]; inversion N; assumption).
  destruct (Sp _ I) as [Ia Ib].
  assert (La : no_cr cs -> Forall2 tok_at q1 k1) by (intros N; apply (Sp _ (L N))).
  assert (Lb : no_cr cs -> Forall2 (fun t k => tok_at t (behind (cs1 ++ [10%Z]) k)) q2 k2) by (intros N; apply (Sp _ (L N))).
  assert (Oa : plain cs1 -> plain cs2 -> Forall2 tok_col q1 k1) by (intros X Y; apply (Sp _ (O (plain_concat _ _ X Y)))).
  assert (Ob : plain cs1 -> plain cs2 -> Forall2 (fun t k => tok_col t (behind (cs1 ++ [10%Z]) k)) q2 k2) by (intros X Y; apply (Sp _ (O (plain_concat _ _ X Y)))).
  assert (Cond : forall (H : Prop) (P : token -> stok -> Prop) l k, List.length l = List.length k -> (H -> Forall2 P l k) -> Forall2 (fun t x => H -> P t x) l k).
  { clear. intros H P l. induction l as [|t l IH]; intros [|k ks] Hl HP; try discriminate; constructor; [intros X; specialize (HP X); inversion HP; assumption|].
    apply IH; [cbn in Hl; lia|]. intros X. specialize (HP X). inversion HP; assumption. }
  pose proof (Forall2_length _ _ _ I1) as n1. pose proof (Forall2_length _ _ _ I2) as n2. pose proof (Forall2_length _ _ _ Ia) as na. pose proof (Forall2_length _ _ _ Ib) as nb.
  split.
  - pose proof (Forall2_both _ _ _ _ I1 (Forall2_both _ _ _ _ (Cond (no_cr cs) _ _ _ n1 (fun N => L1 (N1 N))) (Cond (plain cs1 /\ plain cs2) _ _ _ n1 (fun X => O1 (proj1 X))))) as X1.
    pose proof (Forall2_both _ _ _ _ Ia (Forall2_both _ _ _ _ (Cond (no_cr cs) _ _ _ na La) (Cond (plain cs1 /\ plain cs2) _ _ _ na (fun X => Oa (proj1 X) (proj2 X))))) as Xa.
    eapply Forall2_join; [exact X1|exact Xa|]. intros t t' k ((A1 & A2) & A3 & A4) ((B1 & B2) & B3 & B4). split; [unfold face; congruence|].
    split; [intros N; specialize (A3 N); specialize (B3 N); unfold tok_at in *; congruence|]. intros X Y. specialize (A4 (conj X Y)). specialize (B4 (conj X Y)). unfold tok_col in *. congruence.
  - pose proof (Forall2_both _ _ _ _ I2 (Forall2_both _ _ _ _ (Cond (no_cr cs) _ _ _ n2 (fun N => L2 (N2 N))) (Cond (plain cs1 /\ plain cs2) _ _ _ n2 (fun X => O2 (proj2 X))))) as X1.
    pose proof (Forall2_both _ _ _ _ Ib (Forall2_both _ _ _ _ (Cond (no_cr cs) _ _ _ nb Lb) (Cond (plain cs1 /\ plain cs2) _ _ _ nb (fun X => Ob (proj1 X) (proj2 X))))) as Xa.
    eapply Forall2_join; [exact X1|exact Xa|]. intros t t' k ((A1 & A2) & A3 & A4) ((B1 & B2) & B3 & B4). unfold behind in *. cbn [skind slit sbefore] in *. split; [unfold face; congruence|].
    split; [|intros X Y; specialize (A4 (conj X Y)); specialize (B4 (conj X Y))].
    + intros N. specialize (A3 N). specialize (B3 N). unfold tok_at, line_of in *. cbn [sbefore] in B3. rewrite B3, A3, line_count_app; [lia|]. apply Forall_app. split; [exact (N1 N)|constructor; [lia|constructor]].
    + unfold tok_col, column_of in *. cbn [sbefore] in B4. rewrite B4, A4, <- app_assoc. cbn [app]. rewrite last_line_app. reflexivity.
Qed.
End Concat.

(** ** C51 *)
(** No list type lacks its item type (parser.go accepts a lone "[", see C13). *)
Definition complete_types (d : document) : Prop := Forall (fun x => body_types closed_type (def_body x)) (doc_defs d).
(** The last definition could have been continued with a block, and the source starts with one. *)
Definition opens_block (cs : list Z) : Prop := exists k ks, tokens_of cs (k :: ks) /\ ssrc k = [123%Z].
Definition ends_without_block (d : document) : Prop := match List.rev (doc_defs d) with x :: _ => block_omitted (def_body x) | [] => False end.

Lemma lexing_lexemes pre cs ts rest : lexing pre cs ts rest -> Forall (fun k => exists stop, lexeme (skind k) (ssrc k) (slit k) stop) ts.
Proof. induction 1; auto. constructor; [cbn; eauto|assumption]. Qed.
Lemma brace_lexeme w stop : lexeme KPunct w (B "{") stop -> w = [123%Z].
Proof.
  intros H. remember (B "{") as lit eqn:El. remember KPunct as kd eqn:Ek. destruct H as [c Hp| | | | | | | |]; try discriminate El; try discriminate Ek.
  - unfold punctuator in Hp. cbn in Hp. repeat (destruct Hp as [<-|Hp]; [first [reflexivity|discriminate El]|]). contradiction.
Qed.
Theorem C51_concatenation : forall fok cs1 cs2 d1 d2,
  clean cs1 -> clean cs2 -> regular_blocks (cs1 ++ 10%Z :: cs2) ->
  parse fok (utf8s cs1) = Doc d1 -> parse fok (utf8s cs2) = Doc d2 -> complete_types d1 -> complete_types d2 ->
  ~ (ends_without_block d1 /\ opens_block cs2) ->
  exists d, parse fok (utf8s (cs1 ++ 10%Z :: cs2)) = Doc d /\
    map def_body (doc_defs d) = map def_body (doc_defs d1) ++ map def_body (doc_defs d2) /\
    (Forall (fun c => c <> 13%Z) (cs1 ++ 10%Z :: cs2) ->
       map def_line (doc_defs d) = map def_line (doc_defs d1) ++ map (fun x => line_count (cs1 ++ [10%Z]) + def_line x) (doc_defs d2)) /\
    (plain cs1 -> plain cs2 -> map def_col (doc_defs d) = map def_col (doc_defs d1) ++ map def_col (doc_defs d2)).
Proof.
  intros fok cs1 cs2 d1 d2 C1 C2 Hr P1 P2 Y1 Y2 Ho.
  destruct (concat_tokens fok cs1 cs2 C1 C2 Hr d1 d2 P1 P2) as (p1 & e1 & p2 & e2 & k2 & q1 & q2 & e & T1 & T2 & E1 & E2 & K2 & I2 & T & E & F1 & F2).
  destruct (C13_sound _ _ _ P1) as (ts1 & T1' & _ & G1). rewrite (tokens_fun _ _ _ T1' T1) in G1. apply G1 in Y1. clear G1 T1'.
  destruct (C13_sound _ _ _ P2) as (ts2 & T2' & _ & G2). rewrite (tokens_fun _ _ _ T2' T2) in G2. apply G2 in Y2. clear G2 T2'.
  destruct Y1 as (f1 & _ & G1). destruct Y2 as (f2 & _ & G2).
  assert (A2 : exists ds2', g_defs fok Lenient (q2 ++ [e]) ds2' [e] /\ Forall2 (moved (second cs1 cs2)) (doc_defs d2) ds2').
  { destruct (g_defs_move fok Lenient (second cs1 cs2) (fun t t' H => proj1 H) _ _ _ G2) as (p & Ep & _ & H). apply app_inj_tail in Ep. destruct Ep as [<- _]. apply H; [exact F2|discriminate|].
    intros _ (x & Hx). inversion Hx; subst. discriminate. }
  destruct A2 as (ds2' & A2 & M2).
  assert (A1 : exists ds1', g_defs fok Lenient (q1 ++ q2 ++ [e]) ds1' (q2 ++ [e]) /\ Forall2 (moved (first cs1 cs2)) (doc_defs d1) ds1').
  { destruct (g_defs_move fok Lenient (first cs1 cs2) (fun t t' H => proj1 H) _ _ _ G1) as (p & Ep & _ & H). apply app_inj_tail in Ep. destruct Ep as [<- _]. apply H; [exact F1|discriminate|].
    intros Hopen Hx. apply Ho. split; [exact Hopen|]. apply brace_head in Hx. destruct Hx as (t & ts' & Et & Ef). destruct q2 as [|t' q2].
    - injection Et as <- _. unfold face in Ef. rewrite E in Ef. discriminate.
    - injection Et as -> _. inversion F2 as [|u ? p2' ? [Fu _]]; subst. inversion I2 as [|? k ? k2' [Ku Lu]]; subst. exists k, k2'. split; [exact K2|].
      pose proof (lexing_lexemes _ _ _ _ K2) as Hl. inversion Hl as [|? ? (stop & Hk)]; subst. rewrite Fu in Ef. unfold face in Ef. injection Ef as Ef1 Ef2. rewrite <- Ku, <- Lu, Ef1, Ef2 in Hk.
      eapply brace_lexeme, Hk. }
  destruct A1 as (ds1' & A1 & M1).
  destruct (C12_complete fok _ _ Lenient (ds1' ++ ds2') T (or_intror eq_refl)) as (d & Pd & Ed).
  { exists e. split; [exact E|]. eapply g_defs_app; eassumption. }
  exists d. split; [exact Pd|]. rewrite Ed. rewrite !map_app.
  assert (B : forall Q ds ds', Forall2 (moved Q) ds ds' -> map def_body ds' = map def_body ds) by (intros Q ds ds' H; induction H as [|x y ds ds' [H1 _] _ IH]; cbn [map]; congruence).
  split; [|split].
  - f_equal; eapply B; eassumption.
  - intros N. f_equal.
    + clear - M1 N. induction M1 as [|x y ds ds' (_ & t & t' & (_ & HL & _) & L1 & _ & L2 & _) _ IH]; cbn [map]; [reflexivity|]. rewrite IH, L1, L2, (HL N). reflexivity.
    + clear - M2 N. induction M2 as [|x y ds ds' (_ & t & t' & (_ & HL & _) & L1 & _ & L2 & _) _ IH]; cbn [map]; [reflexivity|]. rewrite IH, L1, L2, (HL N). reflexivity.
  - intros X Y. f_equal.
    + clear - M1 X Y. induction M1 as [|x y ds ds' (_ & t & t' & (_ & _ & HL) & _ & L1 & _ & L2) _ IH]; cbn [map]; [reflexivity|]. rewrite IH, L1, L2, (HL X Y). reflexivity.
    + clear - M2 X Y. induction M2 as [|x y ds ds' (_ & t & t' & (_ & _ & HL) & _ & L1 & _ & L2) _ IH]; cbn [map]; [reflexivity|]. rewrite IH, L1, L2, (HL X Y). reflexivity.
Qed.
Print Assumptions C51_concatenation.

(** The counters add up (not TypeExtensions, which counts distinct names). *)
Theorem C51_counters : forall fok i1 i2 i d1 d2 d, parse fok i1 = Doc d1 -> parse fok i2 = Doc d2 -> parse fok i = Doc d ->
  map def_body (doc_defs d) = map def_body (doc_defs d1) ++ map def_body (doc_defs d2) ->
  n_ops d = n_ops d1 + n_ops d2 /\ n_frags d = n_frags d1 + n_frags d2 /\ n_dirdefs d = n_dirdefs d1 + n_dirdefs d2 /\
  n_schemas d = n_schemas d1 + n_schemas d2 /\ n_types d = n_types d1 + n_types d2 /\ n_schemaexts d = n_schemaexts d1 + n_schemaexts d2 /\
  n_typeexts d <= n_typeexts d1 + n_typeexts d2.
Proof.
  intros fok i1 i2 i d1 d2 d P1 P2 P E.
  destruct (C14_counters _ _ _ P1) as (A1 & A2 & A3 & A4 & A5 & A6 & na & Na & Ia & La). destruct (C14_counters _ _ _ P2) as (B1 & B2 & B3 & B4 & B5 & B6 & nb & Nb & Ib & Lb).
  destruct (C14_counters _ _ _ P) as (D1 & D2 & D3 & D4 & D5 & D6 & nd & Nd & Id & Ld).
  assert (K : forall p, count p d = count p d1 + count p d2).
  { assert (X : forall p x, count p x = List.length (filter p (map def_body (doc_defs x)))).
    { intros p x. unfold count. induction (doc_defs x) as [|y l IH]; [reflexivity|]. cbn [map filter]. destruct (p (def_body y)); cbn [List.length]; rewrite IH; reflexivity. }
    intros p. rewrite !X, E, filter_app, app_length. reflexivity. }
  do 6 (split; [rewrite ?A1, ?A2, ?A3, ?A4, ?A5, ?A6, ?B1, ?B2, ?B3, ?B4, ?B5, ?B6, ?D1, ?D2, ?D3, ?D4, ?D5, ?D6; apply K|]).
  rewrite La, Lb, Ld, <- app_length. apply NoDup_incl_length; [exact Nd|]. intros n Hn. apply Id in Hn. destruct Hn as (x & t & Hx & Hb & Hnm).
  assert (In (def_body x) (map def_body (doc_defs d1) ++ map def_body (doc_defs d2))) as Hi by (rewrite <- E; apply in_map, Hx).
  apply in_app_iff. apply in_app_iff in Hi. destruct Hi as [Hi|Hi]; apply in_map_iff in Hi; destruct Hi as (y & Hy & Hiy); [left; apply Ia|right; apply Ib]; exists y, t; rewrite Hy; auto.
Qed.
Print Assumptions C51_counters.

(** ** Any number of sources, one after the other. *)
Fixpoint joined (l : list (list Z)) : list Z := match l with [] => [] | [x] => x | x :: r => x ++ 10%Z :: joined r end.
Lemma joined_cons x r : r <> [] -> joined (x :: r) = x ++ 10%Z :: joined r.
Proof. destruct r; [congruence|reflexivity]. Qed.
Theorem C51_files : forall fok files docs, files <> [] -> regular_blocks (joined files) ->
  Forall2 (fun cs d => clean cs /\ parse fok (utf8s cs) = Doc d /\ complete_types d /\ ~ opens_block cs) files docs ->
  exists d, parse fok (utf8s (joined files)) = Doc d /\ map def_body (doc_defs d) = List.concat (map (fun x => map def_body (doc_defs x)) docs).
Proof.
  intros fok files docs Hne Hr H.
  enough (G : clean (joined files) /\ (opens_block (joined files) -> opens_block (hd [] files)) /\ exists d, parse fok (utf8s (joined files)) = Doc d /\ complete_types d /\ map def_body (doc_defs d) = List.concat (map (fun x => map def_body (doc_defs x)) docs)).
  { destruct G as (_ & _ & d & P & _ & E). exists d. auto. }
  induction H as [|cs d files docs (C & P & Y & O) H IH]; [congruence|]. destruct files as [|f files].
  { inversion H; subst. cbn [joined hd map List.concat]. split; [exact C|]. split; [auto|]. exists d. rewrite app_nil_r. auto. }
  rewrite (joined_cons cs (f :: files)) in * by discriminate.
  destruct IH as (C' & O' & d' & P' & Y' & E'); [discriminate|apply (regular_app (cs ++ [10%Z])); rewrite <- app_assoc; exact Hr|].
  assert (Hf : ~ opens_block (joined (f :: files))) by (intros X; apply O' in X; inversion H as [|? ? ? ? (_ & _ & _ & X')]; subst; exact (X' X)).
  split; [apply concat_clean; assumption|]. split.
  - intros (k & ks & K & Ek). cbn [hd]. pose proof (regular_prefix _ _ Hr) as R1. destruct (lexed fok cs d C R1 P) as (p1 & e1 & k1 & T1 & E1 & K1 & I1).
    assert (R2 : regular_blocks (joined (f :: files))) by (apply (regular_app (cs ++ [10%Z])); rewrite <- app_assoc; exact Hr).
    destruct (lexed fok _ d' C' R2 P') as (p2 & e2 & k2 & _ & _ & K2 & _). pose proof (tokens_concat _ _ _ _ K1 K2) as K12.
    destruct (lexing_unique _ _ _ _ K (or_introl eq_refl) (concat_clean _ _ C C') Hr _ _ K12 (or_introl eq_refl)) as [Eq _].
    destruct k1 as [|x k1]; [|cbn in Eq; injection Eq as -> _; exists x, k1; auto]. exfalso. inversion I1; subst. cbn in T1.
    destruct (C13_sound _ _ _ P) as (ts & Ts & (z & Hz & Gz) & _). rewrite (tokens_fun _ _ _ Ts T1) in Gz.
    destruct (g_defs_move fok Any eq ltac:(congruence) _ _ _ Gz) as (p & Ep & Hp & _). destruct p as [|a p]; [congruence|]. injection Ep as _ Ep. destruct p; discriminate.
  - destruct (C51_concatenation fok cs (joined (f :: files)) d d' C C' Hr P P' Y Y') as (dd & Pd & Ed & _); [intros [_ X]; exact (Hf X)|].
    exists dd. split; [exact Pd|]. split; [|cbn [map List.concat]; rewrite Ed, E'; reflexivity].
    unfold complete_types in *. rewrite <- (Forall_map def_body (body_types closed_type)) in *. rewrite Ed. apply Forall_app. split; assumption.
Qed.
Print Assumptions C51_files.

(** ** A case that meets the hypotheses, and why they are there *)
Example C51_nonvacuous : exists d1 d2, let cs1 := src "type A implements B @x { f(a: [Int!] = [1]): [A]! } # end" in let cs2 := src (nl ++ " extend type A { g: B } enum E { U V } {a}")%string in
  clean cs1 /\ clean cs2 /\ regular_blocks (cs1 ++ 10%Z :: cs2) /\ parse anyfloat (utf8s cs1) = Doc d1 /\ parse anyfloat (utf8s cs2) = Doc d2 /\
  complete_types d1 /\ complete_types d2 /\ ~ (ends_without_block d1 /\ opens_block cs2) /\ plain cs1 /\ plain cs2 /\ map def_line (doc_defs d2) = [2; 2; 2].
Proof.
  eexists _, _. cbv zeta. split; [apply cleanb_spec; vm_compute; reflexivity|]. split; [apply cleanb_spec; vm_compute; reflexivity|]. split; [apply regularb_spec; vm_compute; reflexivity|].
  split; [vm_compute; reflexivity|]. split; [vm_compute; reflexivity|].
  assert (X : forall cs, forallb (fun c => negb (c =? 13)%Z) cs = true -> containsb triple cs = false -> (match List.rev cs with a :: b :: _ => negb ((a =? 34)%Z && (b =? 34)%Z) | _ => true end) = true -> plain cs).
  { intros cs H1 H2 H3. split; [|split].
    - rewrite forallb_forall in H1. apply Forall_forall. intros c Hc. specialize (H1 c Hc). lia.
    - intros H. apply containsb_spec in H. congruence.
    - intros (a & ->). rewrite rev_app_distr in H3. cbn in H3. discriminate. }
  split; [repeat constructor|]. split; [repeat constructor|]. split; [intros [H _]; vm_compute in H; discriminate|]. split; [apply X; vm_compute; reflexivity|]. split; [apply X; vm_compute; reflexivity|]. vm_compute. reflexivity.
Qed.
Definition accepted (s : string) : Prop := exists d, parse anyfloat (B s) = Doc d.
Definition refused (s : string) : Prop := exists m, parse anyfloat (B s) = Error m.
(** Without a line end between them, the second source can become part of a comment of the first, and is lost: *)
Theorem C51_separator_refuted : exists d1 d2, parse anyfloat (B "scalar A #x") = Doc d1 /\ parse anyfloat (B "scalar B") = Doc d2 /\
  exists d, parse anyfloat (B "scalar A #x" ++ B "scalar B") = Doc d /\ doc_defs d = doc_defs d1.
Proof. do 2 eexists. split; [vm_compute; reflexivity|]. split; [vm_compute; reflexivity|]. eexists. split; vm_compute; reflexivity. Qed.
Print Assumptions C51_separator_refuted.
(** a definition without its block followed by a shorthand query, and a list type without its item type: *)
Theorem C51_block_refuted : accepted "type A" /\ accepted "{a}" /\ refused ("type A" ++ nl ++ "{a}")%string.
Proof. split; [|split]; eexists; vm_compute; reflexivity. Qed.
Print Assumptions C51_block_refuted.
Theorem C51_list_refuted : accepted "union U = [" /\ accepted "type B" /\ refused ("union U = [" ++ nl ++ "type B")%string.
Proof. split; [|split]; eexists; vm_compute; reflexivity. Qed.
Print Assumptions C51_list_refuted.
Example C51_files_nonvacuous : Forall2 (fun cs d => clean cs /\ parse anyfloat (utf8s cs) = Doc d /\ complete_types d /\ ~ opens_block cs)
    [src "scalar A"; src "type B { a: A }"; src "type C # c"]
    (map (fun b => mkDoc b 0 0 0 0 (List.length b) 0 0) [[mkDef 1 1 (DType (mkTd KScalar [] (B "A") [] [] [] [] [] []))];
      [mkDef 1 1 (DType (mkTd KObject [] (B "B") [] [] [mkFd [] (B "a") [] (TNamed (B "A") false) []] [] [] []))];
      [mkDef 1 1 (DType (mkTd KObject [] (B "C") [] [] [] [] [] []))]]).
Proof.
  assert (O : forall cs, regularb cs = true -> cleanb cs = true -> (match lex_all (utf8s cs) with Ok (t :: _) _ => kind_eqb (tkind t) KPunct | _ => true end) = false -> ~ opens_block cs).
  { intros cs Hr Hc Hf (k & ks & K & E). apply cleanb_spec in Hc. apply regularb_spec in Hr. destruct (lex_complete cs (k :: ks) [] Hc Hr K (or_introl eq_refl)) as (ts & s & Hl & Hs). rewrite Hl in Hf.
    destruct ts as [|t ts]; [discriminate|]. cbn [map] in Hs. injection Hs as H1 H2 _. unfold shape in H1. cbn in H1. pose proof (lexing_lexemes _ _ _ _ K) as Hx. inversion Hx as [|? ? (stop & Hlx)]; subst. rewrite E, <- H1 in Hlx.
    assert (L : lexeme KPunct [123%Z] (utf8s [123%Z]) nothing) by (apply lx_punct; unfold punctuator; cbn; tauto).
    destruct (token_unique _ _ _ _ [] _ _ _ _ [] Hlx I L I eq_refl) as (A2 & _ & _ & _); [apply cleanb_spec; reflexivity|apply regularb_spec; reflexivity|]. rewrite A2 in Hf. discriminate. }
  repeat (apply Forall2_cons || apply Forall2_nil); (split; [apply cleanb_spec; vm_compute; reflexivity|]); (split; [vm_compute; reflexivity|]); (split; [repeat constructor|]); (apply O; vm_compute; reflexivity).
Qed.
