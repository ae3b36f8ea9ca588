(** * PropViable: property theorems C59 — a parse error is reported at the first token that cannot be continued.
    Model: [Parser.parse]; specification: LexSpec.v (the tokens of a text); proofs in ParserViable*.v and ParserLocal.v. *)
From Verif Require Import Base Utf8 Lexer LexerTotal LexSpec LexAgree LexMain LexProps AST Parser Grammar GrammarProps GrammarFrame ParserWp ParserSound ParserLocal ParserComplete ParserComplete2 ParserRel PropLex PropParse PropParseErr PropConcat ParserViable ParserViable2 ParserViable3.

(** *** Specification: which token a message is about.
    [blames msg s r]: the offending token is the first of [s], the parser has stopped in front of the first of [r]. *)
Inductive blames (msg : bytes) : list token -> list token -> Prop :=
(* the token the parser stands at *)
| bl_quoted t r : quotes msg t -> blames msg (t :: r) (t :: r)
(* a value is missing there (this message has no position) *)
| bl_value t r : msg = B "TODO: see `parseDefinition`" -> blames msg (t :: r) (t :: r)
(* the token just read: a number that is refused, or "true", "false", "null" as the name of an enum value *)
| bl_number t r : bad_number msg t -> blames msg (t :: r) r
| bl_enum t r : tkind t = KName -> In (tlit t) [B "true"; B "false"; B "null"] -> quotes msg t -> blames msg (t :: r) r
(* a fragment called "on": the message quotes the token after it *)
| bl_on t u r : tkind t = KName -> tlit t = B "on" -> quotes msg u -> blames msg (t :: u :: r) (u :: r)
(* a list type where only a name may stand: the message quotes a token after its "[" *)
| bl_list t p u r : tkind t = KPunct -> tlit t = B "[" -> quotes msg u -> blames msg (t :: p ++ u :: r) (u :: r).

(** The text [after] starts with the token [b] (the end of the source and an illegal character are tokens too). *)
Definition starts (b : token) (after : list Z) : Prop :=
  (exists w stop x, after = w ++ x /\ lexeme (tkind b) w (tlit b) stop /\ ends stop x) \/ (tkind b = KEOF /\ after = []) \/ (tkind b = KIllegal /\ stuck after).

Lemma terminal_length k l ts r : terminal k l ts r -> List.length ts = S (List.length r).
Proof. intros []. reflexivity. Qed.
Lemma type_length ts t r : g_type Any ts t r -> List.length r < List.length ts.
Proof. induction 1; repeat match goal with H : terminal _ _ _ _ |- _ => apply terminal_length in H end; lia. Qed.
Lemma late_blames e s r : late e s r -> blames e s r.
Proof.
  intros H. destruct H as [t r ws ->|t r ->|t r Hk -> _|t r Hk ->|t r Hk Hi ->|t u r Hk Hl ->|s u r (s1 & Hb & Ht) He].
  - apply bl_quoted, unexpected_quotes.
  - apply bl_value. reflexivity.
  - apply bl_number, int_bad; assumption.
  - apply bl_number, float_bad; assumption.
  - apply bl_enum; [exact Hk| |apply unexpected_quotes]. cbn in Hi |- *. tauto.
  - apply bl_on; [exact Hk|exact Hl|apply unexpected_quotes].
  - assert (Hq : quotes e u) by (destruct He as [->| ->]; apply unexpected_quotes). inversion Hb; subst. destruct Ht as [(t & Ht)|(t & Ht)].
    + pose proof (type_length _ _ _ Ht) as Hl. destruct (g_type_suffix Any _ _ _ Ht) as (p & E). destruct p as [|t0 p]; [rewrite E in Hl; cbn in Hl; lia|]. cbn [app] in E. injection E as <- ->. apply bl_list; [reflexivity|reflexivity|exact Hq].
    + destruct (g_type_suffix Any _ _ _ Ht) as (p & ->). apply bl_list; [reflexivity|reflexivity|exact Hq].
Qed.
Lemma late_cons e s r : late e s r -> exists t s', s = t :: s'.
Proof. intros H. destruct H as [| | | | | |s u r (s1 & Hb & Ht) He]; eauto. inversion Hb; subst. eauto. Qed.

(** *** The words a completion is made of can be spelt. *)
Definition spell (w : list token) : list Z := flat_map (fun t => map zb (tlit t) ++ [32%Z]) w.
Lemma utf8s_ascii l : Forall (fun b => (0 <= zb b < 128)%Z) l -> utf8s (map zb l) = l.
Proof.
  induction 1 as [|b l Hb H IH]; [reflexivity|]. cbn [map]. unfold utf8s in *. cbn [flat_map]. rewrite IH. unfold utf8. replace (zb b <? 128)%Z with true by lia. cbn [app]. f_equal. apply bz_zb.
Qed.
Lemma punct_lexeme b : punctuator (zb b) -> lexeme KPunct (map zb [b]) [b] nothing.
Proof.
  intros H. rewrite <- (utf8s_ascii [b]) at 2; [apply lx_punct, H|]. constructor; [|constructor]. unfold punctuator in H. cbn in H. repeat (destruct H as [<-|H]; [lia|]). destruct H.
Qed.
Lemma word_lexeme t : word_tok t = true -> exists stop, lexeme (tkind t) (map zb (tlit t)) (tlit t) stop.
Proof.
  unfold word_tok. destruct (tkind t); try discriminate.
  - intros H. unfold inb in H. rewrite existsb_exists in H. destruct H as (x & Hx & E). apply beqb_true in E. rewrite E. clear E. cbn in Hx.
    repeat (destruct Hx as [<-|Hx]; [exists nothing; first [apply lx_spread|apply punct_lexeme; unfold punctuator; cbn; tauto]|]). destruct Hx.
  - intros H. destruct (tlit t) as [|b l] eqn:E; [discriminate|]. rewrite forallb_forall in H.
    assert (A : forall x, In x (b :: l) -> (65 <= zb x <= 90 \/ 97 <= zb x <= 122 \/ zb x = 95)%Z) by (intros x Hx; specialize (H x Hx); unfold letterb in H; lia).
    exists name_char. rewrite <- (utf8s_ascii (b :: l)) at 2 by (apply Forall_forall; intros x Hx; specialize (A x Hx); lia). cbn [map]. apply lx_name; [apply (A b); left; reflexivity|].
    apply Forall_forall. intros c Hc. apply in_map_iff in Hc. destruct Hc as (x & <- & Hx). left. apply (A x). right. exact Hx.
Qed.
Lemma spell_lexing w : words w = true -> forall pre, exists ks, lexing pre (spell w) ks [] /\ Forall2 tok_is w ks.
Proof.
  induction w as [|t w IH]; intros H pre; [exists []; split; constructor|]. cbn [words forallb] in H. apply andb_true_iff in H. destruct H as [Ht Hw]. destruct (word_lexeme t Ht) as (stop & Hl).
  destruct (IH Hw ((pre ++ map zb (tlit t)) ++ [32%Z])) as (ks & H1 & H2). exists (mkStok (tkind t) (tlit t) pre (map zb (tlit t)) :: ks). split; [|constructor; [split; reflexivity|exact H2]].
  unfold spell. cbn [flat_map]. rewrite <- app_assoc. eapply lg_token; [exact Hl| |].
  - cbn [app ends]. eapply lexeme_stop; [exact Hl|]. left. unfold ignored_char. lia.
  - cbn [app]. apply lg_ignored; [unfold ignored_char; lia|]. exact H1.
Qed.
(** ... without quotes or control characters *)
Lemma word_chars t c : word_tok t = true -> In c (map zb (tlit t)) -> (33 <= c < 127 /\ c <> 34)%Z.
Proof.
  unfold word_tok. intros H Hc. apply in_map_iff in Hc. destruct Hc as (x & <- & Hx). destruct (tkind t); try discriminate.
  - unfold inb in H. rewrite existsb_exists in H. destruct H as (y & Hy & E). apply beqb_true in E. rewrite E in Hx. clear E.
    cbn in Hy. repeat (destruct Hy as [<-|Hy]; [cbn in Hx; repeat (destruct Hx as [<-|Hx]; [vm_compute; intuition congruence|]); destruct Hx|]). destruct Hy.
  - destruct (tlit t) as [|b l]; [discriminate|]. rewrite forallb_forall in H. specialize (H x Hx). unfold letterb in H. lia.
Qed.
Lemma spell_chars w c : words w = true -> In c (spell w) -> (32 <= c < 127 /\ c <> 34)%Z.
Proof.
  intros H Hc. unfold spell in Hc. apply in_flat_map in Hc. destruct Hc as (t & Ht & Hc). unfold words in H. rewrite forallb_forall in H. apply in_app_or in Hc. destruct Hc as [Hc|[<-|[]]]; [|lia].
  pose proof (word_chars t c (H t Ht) Hc). lia.
Qed.

Lemma list_rev_cases {A} (l : list A) : l = [] \/ exists l' y, l = l' ++ [y].
Proof. destruct l as [|a l]; [left; reflexivity|right]. destruct (exists_last (l := a :: l) ltac:(discriminate)) as (l' & y & E). eauto. Qed.
(** *** A source cut after some of its tokens, and continued on a new line. *)
Lemma lexing_split pre cs ts rest : lexing pre cs ts rest -> forall k1 k2, ts = k1 ++ k2 ->
  exists mid, lexing pre cs k1 mid /\ match k2 with [] => mid = rest | k :: _ => exists w stop x, mid = w ++ x /\ lexeme (skind k) w (slit k) stop /\ ends stop x end.
Proof.
  induction 1 as [pre cs|pre c t ts rest Hi H IH|pre b t ts rest Hb Hle H IH|pre k w lit stop t ts rest Hlex He H IH]; intros k1 k2 E.
  - symmetry in E. apply app_eq_nil in E. destruct E as [-> ->]. exists cs. split; [constructor|reflexivity].
  - destruct (IH k1 k2 E) as (mid & M & S). exists mid. split; [apply lg_ignored; assumption|exact S].
  - destruct (IH k1 k2 E) as (mid & M & S). exists mid. split; [apply lg_comment; assumption|exact S].
  - destruct k1 as [|k1a k1].
    + cbn [app] in E. subst k2. eexists. split; [constructor|]. exists w, stop, t. cbn [skind slit]. auto.
    + cbn [app] in E. injection E as <- E. destruct (IH k1 k2 E) as (mid & M & S). exists mid. split; [eapply lg_token; eassumption|exact S].
Qed.
Lemma lexing_cut pre cs ts rest : lexing pre cs ts rest -> forall u x, cs = u ++ rest -> lexing pre (u ++ 10%Z :: x) ts (10%Z :: x).
Proof.
  induction 1 as [pre cs|pre c t ts rest Hi H IH|pre b t ts rest Hb Hle H IH|pre k w lit stop t ts rest Hlex He H IH]; intros u x E.
  - assert (u = []) as -> by (apply (f_equal (@List.length Z)) in E; rewrite app_length in E; destruct u; [reflexivity|cbn in E; lia]). constructor.
  - destruct (lexing_before _ _ _ _ H) as (body & Eb & _). assert (u = c :: body) as -> by (apply (app_inv_tail rest); rewrite <- E, Eb; reflexivity). cbn [app]. apply lg_ignored; [exact Hi|]. apply IH, Eb.
  - destruct (lexing_before _ _ _ _ H) as (body & Eb & _). assert (u = 35%Z :: b ++ body) as -> by (apply (app_inv_tail rest); rewrite <- E, Eb; cbn; rewrite <- app_assoc; reflexivity).
    cbn [app]. rewrite <- app_assoc. apply lg_comment; [exact Hb| |apply IH, Eb]. destruct body; [left; reflexivity|]. subst t. exact Hle.
  - destruct (lexing_before _ _ _ _ H) as (body & Eb & _). assert (u = w ++ body) as -> by (apply (app_inv_tail rest); rewrite <- E, Eb, app_assoc; reflexivity).
    rewrite <- app_assoc. eapply lg_token; [exact Hlex| |apply IH, Eb]. destruct body; [|subst t; exact He]. cbn [app ends]. eapply lexeme_stop; [exact Hlex|]. left. unfold ignored_char. lia.
Qed.
Lemma contains_quoted p u x : (forall c, In c x -> c <> 34%Z) -> contains (p ++ [34%Z]) (u ++ x) -> contains (p ++ [34%Z]) u.
Proof.
  intros Hx (a & b & E). rewrite (app_assoc a), (app_assoc a) in E. apply app_eq_app in E. destruct E as (l & [[E1 E2]|[E1 E2]]).
  - exists a, l. rewrite E1, <- !app_assoc. reflexivity.
  - destruct (list_rev_cases l) as [->|(l' & y & ->)].
    + rewrite app_nil_r in E1. exists a, []. rewrite <- E1, app_nil_r, <- app_assoc. reflexivity.
    + exfalso. rewrite app_assoc in E1. apply app_inj_tail in E1. destruct E1 as [_ <-]. apply (Hx 34%Z); [|reflexivity]. rewrite E2. apply in_or_app. left. apply in_or_app. right. left. reflexivity.
Qed.
Lemma regular_cut u rest w : regular_blocks (u ++ rest) -> words w = true -> regular_blocks (u ++ 10%Z :: spell w).
Proof.
  intros H Hw. apply regular_prefix in H. assert (Hx : forall c, In c (10%Z :: spell w) -> c <> 34%Z) by (intros c [<-|Hc]; [lia|apply (spell_chars w c Hw Hc)]).
  destruct H as [H|[H1 H2]]; [left|right; split].
  - intros C. apply H. apply (contains_quoted [34; 34]%Z u _ Hx C).
  - apply Forall_app. split; [exact H1|]. constructor; [lia|]. apply Forall_forall. intros c Hc. pose proof (spell_chars w c Hw Hc). lia.
  - intros C. apply H2. apply (contains_quoted [92; 92; 34; 34]%Z u _ Hx C).
Qed.
Lemma clean_cut u rest w : clean (u ++ rest) -> words w = true -> clean (u ++ 10%Z :: spell w).
Proof.
  intros H Hw. apply Forall_app in H. destruct H as [H _]. apply Forall_app. split; [exact H|]. constructor; [unfold scalar; lia|]. apply Forall_forall. intros c Hc. pose proof (spell_chars w c Hw Hc). unfold scalar. lia.
Qed.

(** *** Where the parser stops, its error is final (as C46, with the place named, and for all token lists). *)
Lemma loop_returns fok ts : wf ts -> let r := parse_loop fok (List.length ts) (List.length ts) (mkC 0 0 0 0 0 0 []) ts in r <> PCrash OutOfFuel /\ r <> PCrash Over.
Proof.
  intros Hw r. pose proof (parse_tokens_sound fok ts Hw) as H. unfold parse_tokens, pbind in H. fold r in H. split; intros E; rewrite E in H; destruct H as [H _]; discriminate.
Qed.
Lemma stop_final fok ts e r : wf ts -> parse_tokens fok ts = PErr e r ->
  exists p t post, ts = p ++ t :: post /\ r = t :: post /\ forall post', wf (p ++ t :: post') -> exists r', parse_tokens fok (p ++ t :: post') = PErr e r'.
Proof.
  intros Hw Hp. destruct (loop_returns fok ts Hw) as [Hr1 Hr2].
  assert (Hts : ts <> []) by (intros ->; exact Hw).
  unfold parse_tokens, pbind in Hp. destruct (parse_loop fok (List.length ts) (List.length ts) (mkC 0 0 0 0 0 0 []) ts) as [x s|e' s|c] eqn:E; [discriminate| |discriminate].
  injection Hp as -> ->.
  pose proof (loc_parse_loop (hd (mkTok KEOF [] 0 0) r) (tl r) (tl r) fok (List.length ts) (List.length ts) (le_n _) (List.length ts) (List.length ts) [] (mkC 0 0 0 0 0 0 []) (le_n _) ts Hts) as H.
  rewrite E in H. destruct H as (pre & Ep & Hs & Hb & _). destruct r as [|t post]; [congruence|]. exists pre, t, post. split; [exact Ep|]. split; [reflexivity|].
  intros post' Hw'. set (ts' := pre ++ t :: post') in *. destruct (loop_returns fok ts' Hw') as [Hr1' Hr2'].
  unfold parse_tokens, pbind.
  set (m := Nat.max (List.length ts) (List.length ts')). rewrite <- (fuel_up fok _ m ts' ltac:(lia) Hr1' Hr2').
  rewrite <- (fuel_up fok _ m ts) in E by (try lia; congruence).
  pose proof (loc_parse_loop t post post' fok m m (le_n _) m m [] (mkC 0 0 0 0 0 0 []) (le_n _) ts Hts) as H. rewrite E in H. destruct H as (_ & _ & _ & _ & H).
  unfold ts'. rewrite (H pre [] Ep eq_refl). eauto.
Qed.
Lemma wf_faces a : forall b, map face a = map face b -> wf a -> wf b.
Proof.
  induction a as [|t a IH]; intros [|u b] E H; try discriminate; [exact H|]. cbn [map] in E. injection E as E1 E2 E3. cbn [wf] in *. assert (Hl : is_last u = is_last t) by (unfold is_last; rewrite E1; reflexivity). rewrite Hl.
  destruct (is_last t); [subst a; destruct b; [reflexivity|discriminate]|]. apply IH; assumption.
Qed.
Lemma Forall2_faces a : forall b, map face a = map face b -> Forall2 (fun t t' => face t' = face t) a b.
Proof. induction a as [|t a IH]; intros [|u b] E; try discriminate; constructor. { cbn in E. congruence. } apply IH. cbn in E. congruence. Qed.
Lemma document_faces fok ts ts' ds : map face ts = map face ts' -> g_document fok Any ts ds -> exists ds', g_document fok Any ts' ds' /\ map def_body ds' = map def_body ds.
Proof.
  intros E (e & He & G). destruct (g_defs_move fok Any (fun t t' => face t' = face t) (fun t t' E => E) _ _ _ G) as (p & -> & _ & M). rewrite map_app in E. symmetry in E. apply map_eq_app in E. destruct E as (p' & x & -> & E1 & E2).
  destruct x as [|e' [|? ?]]; try discriminate. cbn in E2. injection E2 as E2 E3. destruct (M p' [e']) as (ds' & G' & Hm).
  - apply Forall2_faces. congruence.
  - intros _. left. apply eof_tame. congruence.
  - intros _ (y & Hy). inversion Hy; subst. cbn in E2. congruence.
  - exists ds'. split; [exists e'; split; [congruence|exact G']|]. clear -Hm. induction Hm as [|d d' ds ds' H Hm IH]; [reflexivity|]. cbn [map]. destruct H as [-> _]. rewrite IH. reflexivity.
Qed.
(** ... whatever the positions of the tokens *)
Lemma stop_hopeless fok p t : (forall post', wf (p ++ t :: post') -> exists e r', parse_tokens fok (p ++ t :: post') = PErr e r') ->
  forall i q u post', tokens i (q ++ u :: post') -> map face q = map face p -> face u = face t -> forall d, parse fok i <> Doc d.
Proof.
  intros Hf i q u post' Ht Eq Eu d Hd. destruct (C13_sound _ _ _ Hd) as (ts' & Ht' & G & _). rewrite (tokens_fun _ _ _ Ht' Ht) in G. destruct (tokens_wf i) as (ts2 & Ht2 & Hw). rewrite (tokens_fun _ _ _ Ht2 Ht) in Hw.
  assert (E : map face (q ++ u :: post') = map face (p ++ t :: post')) by (rewrite !map_app; cbn [map]; congruence). destruct (document_faces fok _ _ _ E G) as (ds' & G' & _). apply (wf_faces _ _ E) in Hw.
  destruct (parse_tokens_complete fok Any _ _ Hw G') as (r & Hr). destruct (Hf post' Hw) as (e & r' & He). congruence.
Qed.

(** *** The completion is accepted. *)
Lemma completed fok pre w ds p' e' : (forall x, tkind x = KEOF -> g_defs fok Any (pre ++ w ++ [x]) ds [x]) -> Forall2 (fun t t' => face t' = face t) (pre ++ w) p' -> tkind e' = KEOF ->
  exists ds', g_document fok Any (p' ++ [e']) ds' /\ map def_body ds' = map def_body ds.
Proof.
  intros H Hf He. pose proof (H (mkTok KEOF [] 0 0) eq_refl) as G. rewrite app_assoc in G.
  destruct (g_defs_move fok Any (fun t t' => face t' = face t) (fun t t' E => E) _ _ _ G) as (p & Ep & _ & M). apply app_inj_tail in Ep. destruct Ep as [<- _].
  destruct (M p' [e'] Hf) as (ds' & G' & Hm).
  - intros _. left. apply eof_tame, He.
  - intros _ (x & Hx). inversion Hx; subst. discriminate.
  - exists ds'. split; [exists e'; split; [exact He|exact G']|]. clear -Hm. induction Hm as [|d d' ds ds' H Hm IH]; [reflexivity|]. cbn [map]. destruct H as [-> _]. rewrite IH. reflexivity.
Qed.

(** ** C59.  If Parse reports an error, the source is [before ++ after], where [before] consists of the tokens [pre] and [after] starts with the
    token [b] that is to blame.  [before] can be completed to a document that Parse accepts; but no source whose tokens start with [pre], the
    blamed token and what follows it up to the token [t] where the parser stopped is accepted (wherever these tokens stand in it); if they
    stand in the same places, the message is the same. *)
Theorem C59_first_error : forall fok cs msg, clean cs -> regular_blocks cs -> parse fok (utf8s cs) = Error msg ->
  exists before after pre b s, cs = before ++ after /\ tokens (utf8s cs) (pre ++ b :: s) /\
    (exists ks, lexing [] cs ks after /\ Forall2 tok_is pre ks) /\ starts b after /\
    (exists completion d, parse fok (utf8s (before ++ 10%Z :: completion)) = Doc d) /\
    exists mid t post, b :: s = mid ++ t :: post /\ blames msg (b :: s) (t :: post) /\
      (forall i post', tokens i (pre ++ mid ++ t :: post') -> parse fok i = Error msg) /\
      (forall i q u post', tokens i (q ++ u :: post') -> map face q = map face (pre ++ mid) -> face u = face t -> forall d, parse fok i <> Doc d).
Proof.
  intros fok cs msg Hc Hr Hp. destruct (lex_main cs Hc Hr) as (ts0 & last & s0 & toks & body & rest & H1 & H2 & H3 & H4 & H5 & _). assert (Ht : tokens (utf8s cs) (ts0 ++ [last])) by (exists s0; exact H1).
  destruct (tokens_wf (utf8s cs)) as (ts & Ht' & Hw). rewrite (tokens_fun _ _ _ Ht' Ht) in Hw. clear ts Ht'. rewrite (parse_eq _ _ _ Ht) in Hp. pose proof (parse_tokens_viable fok _ Hw) as V.
  destruct (parse_tokens fok (ts0 ++ [last])) as [d r|e r|c] eqn:E; [discriminate| |destruct c; discriminate]. injection Hp as ->. destruct V as (s & pre & w & ds & (L & Sw) & Es & V).
  destruct (late_cons _ _ _ L) as (b & s' & Eb). subst s.
  assert (Hpre : exists more, ts0 = pre ++ more /\ b :: s' = more ++ [last]).
  { destruct (exists_last (l := b :: s') ltac:(discriminate)) as (m & y & Em). rewrite Em, app_assoc in Es. apply app_inj_tail in Es. destruct Es as [-> ->]. eauto. }
  destruct Hpre as (more & Em & Emore). rewrite Em in H4. apply Forall2_app_inv_l in H4. destruct H4 as (k1 & k2 & K1 & K2 & Ek). destruct (lexing_split _ _ _ _ H2 k1 k2 Ek) as (after & M & S).
  destruct (lexing_before _ _ _ _ M) as (before & Ebef & _). exists before, after, pre, b, s'. split; [exact Ebef|]. split; [rewrite <- Es; exact Ht|]. split; [exists k1; auto|]. split; [|split].
  - destruct K2 as [|x k more k2 [Kk Kl] K2].
    + cbn [app] in Emore. injection Emore as -> ->. right. destruct H5 as [(J1 & _ & J2)|(J1 & J2)]; [left|right]; rewrite S; auto.
    + cbn [app] in Emore. injection Emore as -> _. left. rewrite Kk, Kl. exact S.
  - (* the completion *)
    exists (spell w). rewrite Ebef in Hc, Hr. pose proof (clean_cut _ _ w Hc Sw) as Hc'. pose proof (regular_cut _ _ w Hr Sw) as Hr'. destruct (spell_lexing w Sw (before ++ [10%Z])) as (kw & W1 & W2).
    assert (K : lexing [] (before ++ 10%Z :: spell w) (k1 ++ kw) []).
    { eapply (lexing_app [] before (10%Z :: spell w)); [apply (lexing_cut _ _ _ _ M _ _ Ebef)|reflexivity|]. cbn [app]. apply lg_ignored; [unfold ignored_char; lia|exact W1]. }
    destruct (lex_main _ Hc' Hr') as (ts1 & last1 & s1 & toks1 & body1 & rest1 & T1 & T2 & _ & T4 & T5 & _).
    assert (F : final rest1) by (destruct T5 as [(_ & _ & ->)|(_ & H)]; [left; reflexivity|right; exact H]).
    destruct (lexing_unique _ _ _ _ T2 F Hc' Hr' _ _ K (or_introl eq_refl)) as [-> ->].
    assert (El : tkind last1 = KEOF) by (destruct T5 as [(El & _)|(_ & [Hs _])]; [exact El|congruence]).
    assert (Hf : Forall2 (fun t t' => face t' = face t) (pre ++ w) ts1).
    { eapply Forall2_join; [exact (Forall2_app K1 W2)|exact T4|]. intros a b0 c [A1 A2] [B1 B2]. unfold face. congruence. }
    destruct (completed fok pre w ds ts1 last1 V Hf El) as (ds' & G & _). destruct (proj1 (C13_language fok _ _ ds' (ex_intro _ s1 T1)) G) as (d & Hd & _). exists d. exact Hd.
  - destruct (stop_final fok _ _ _ Hw E) as (p & t & post & Ep & Er & Hfin). subst r. assert (Hsuf : exists mid, b :: s' = mid ++ t :: post).
    { pose proof (late_blames _ _ _ L) as Bl. remember (t :: post) as r eqn:Er. destruct Bl as [u r Q|u r Q|u r Q|u r Q1 Q2 Q|u v r Q1 Q2 Q|u p0 v r Q1 Q2 Q]; [exists []|exists []|exists [u]|exists [u]|exists [u]|exists (u :: p0)]; try (rewrite <- Er); reflexivity. }
    destruct Hsuf as (mid & Emid). exists mid, t, post. split; [exact Emid|]. split; [apply late_blames, L|].
    assert (Epm : p = pre ++ mid) by (apply (app_inv_tail (t :: post)); rewrite <- app_assoc, <- Emid, <- Es; symmetry; exact Ep). subst p. split.
    + intros i post' Hi. rewrite app_assoc in Hi. destruct (tokens_wf i) as (ts2 & Hi2 & Hwi). rewrite (tokens_fun _ _ _ Hi2 Hi) in Hwi. destruct (Hfin post' Hwi) as (r' & Hr'). rewrite (parse_eq _ _ _ Hi), Hr'. reflexivity.
    + apply stop_hopeless. intros post' Hw'. destruct (Hfin post' Hw') as (r' & Hr'). eauto.
Qed.
Print Assumptions C59_first_error.

(** ** C59, for a reader that feeds the parser line by line.  Unless a token other than the end of the source is to blame, more lines make the
    source a document ... *)
Theorem C59_incomplete : forall fok cs msg, clean cs -> regular_blocks cs -> parse fok (utf8s cs) = Error msg ->
  (exists more d, parse fok (utf8s (cs ++ 10%Z :: more)) = Doc d) \/
  (exists pre b s r, tokens (utf8s cs) (pre ++ b :: s) /\ tkind b <> KEOF /\ blames msg (b :: s) r).
Proof.
  intros fok cs msg Hc Hr Hp. destruct (C59_first_error fok cs msg Hc Hr Hp) as (before & after & pre & b & s & E & Ht & _ & Hs & Hd & mid & t & post & _ & Hb & _).
  destruct (kind_eqb (tkind b) KEOF) eqn:K; [left|right].
  - apply kind_eqb_true in K. destruct Hs as [(w & stop & x & _ & Hl & _)|[(_ & ->)|(K' & _)]]; [exfalso; apply (lexeme_kind _ _ _ _ Hl), K| |congruence]. rewrite app_nil_r in E. subst before. exact Hd.
  - exists pre, b, s, (t :: post). split; [exact Ht|]. split; [intros K'; rewrite K' in K; discriminate|exact Hb].
Qed.
Print Assumptions C59_incomplete.

(** ... and if more lines make it one, the parser has read all of its tokens before it gave up. *)
Theorem C59_completable : forall fok cs msg ks, clean cs -> tokens_of cs ks -> parse fok (utf8s cs) = Error msg ->
  forall more d, clean more -> regular_blocks (cs ++ 10%Z :: more) -> parse fok (utf8s (cs ++ 10%Z :: more)) = Doc d ->
  exists pre s e, tokens (utf8s cs) (pre ++ s) /\ blames msg s [e] /\ tkind e = KEOF.
Proof.
  intros fok cs msg ks Hc Hk Hp more d Hcm Hr Hd. pose proof (regular_prefix _ _ Hr) as Hr1. destruct (C59_first_error fok cs msg Hc Hr1 Hp) as (before & after & pre & b & s & E & Ht & _ & _ & _ & mid & t & post & Es & Hb & _ & Hfin).
  destruct (lex_main cs Hc Hr1) as (ts0 & last & s0 & toks & body & rest & H1 & H2 & _ & H4 & H5 & _). assert (Ht0 : tokens (utf8s cs) (ts0 ++ [last])) by (exists s0; exact H1).
  assert (F : final rest) by (destruct H5 as [(_ & _ & ->)|(_ & H)]; [left; reflexivity|right; exact H]). destruct (lexing_unique _ _ _ _ H2 F Hc Hr1 _ _ Hk (or_introl eq_refl)) as [-> ->].
  assert (El : tkind last = KEOF) by (destruct H5 as [(El & _)|(_ & [Hs _])]; [exact El|congruence]).
  pose proof (tokens_fun _ _ _ Ht Ht0) as Et. rewrite Es, app_assoc in Et. exists pre, (b :: s), last. split; [exact Ht|]. split; [|exact El].
  destruct post as [|u post]; [apply app_inj_tail in Et; destruct Et as [_ ->]; exact Hb|]. exfalso.
  destruct (exists_last (l := u :: post) ltac:(discriminate)) as (post0 & y & Ey). rewrite Ey, (app_assoc _ (t :: post0) [y] : (pre ++ mid) ++ t :: post0 ++ [y] = ((pre ++ mid) ++ t :: post0) ++ [y]) in Et. apply app_inj_tail in Et. destruct Et as [Et _].
  assert (Hcw : clean (cs ++ 10%Z :: more)) by (apply Forall_app; split; [exact Hc|]; constructor; [unfold scalar; lia|exact Hcm]).
  destruct (lex_main more Hcm (regular_app (cs ++ [10%Z]) more ltac:(rewrite <- app_assoc; exact Hr))) as (ts2 & last2 & s2 & toks2 & body2 & rest2 & _ & M2 & _ & _ & M5 & _).
  assert (F2 : final rest2) by (destruct M5 as [(_ & _ & ->)|(_ & H)]; [left; reflexivity|right; exact H]).
  assert (K : lexing [] (cs ++ 10%Z :: more) (ks ++ map (behind (cs ++ [10%Z])) toks2) rest2).
  { eapply (lexing_app [] cs (10%Z :: more)); [apply (lexing_extend _ _ _ _ Hk eq_refl)|reflexivity|]. cbn [app]. apply lg_ignored; [unfold ignored_char; lia|]. pose proof (lexing_behind (cs ++ [10%Z]) _ _ _ _ M2) as X. rewrite app_nil_r in X. exact X. }
  destruct (lex_main _ Hcw Hr) as (ts1 & last1 & s1 & toks1 & body1 & rest1 & T1 & T2 & _ & T4 & T5 & _).
  assert (F1 : final rest1) by (destruct T5 as [(_ & _ & ->)|(_ & H)]; [left; reflexivity|right; exact H]).
  destruct (lexing_unique _ _ _ _ T2 F1 Hcw Hr _ _ K F2) as [-> ->]. apply Forall2_app_inv_r in T4. destruct T4 as (q1 & q2 & Q1 & Q2 & ->).
  assert (Eq : map face q1 = map face ts0) by (clear -H4 Q1; revert ts0 H4; induction Q1 as [|a k q1 ks [A1 A2] Q1 IH]; intros ts0 H4; inversion H4 as [|c ? ? ? [B1 B2]]; subst; [reflexivity|]; cbn [map]; f_equal; [unfold face; congruence|auto]).
  rewrite <- Et, map_app in Eq. cbn [map] in Eq. apply map_eq_app in Eq. destruct Eq as (qa & qb & -> & Ea & Eb). destruct qb as [|v qb]; [discriminate|]. cbn [map] in Eb.
  apply (Hfin (utf8s (cs ++ 10%Z :: more)) qa v (qb ++ q2 ++ [last1])) with (d := d); [exists s1; rewrite T1, <- !app_assoc; reflexivity|exact Ea|congruence|exact Hd].
Qed.
Print Assumptions C59_completable.

(** ** Cases that meet the hypotheses *)
Example C59_nonvacuous : let cs := src "type A { f(a: ) } {" in
  clean cs /\ regular_blocks cs /\ (exists m, parse anyfloat (utf8s cs) = Error m) /\ cs = src "type A { f(a: " ++ src ") } {" /\
  exists d, parse anyfloat (utf8s (src "type A { f(a: " ++ 10%Z :: src "a ) : a }")) = Doc d.
Proof.
  cbv zeta. split; [apply cleanb_spec; vm_compute; reflexivity|]. split; [apply regularb_spec; vm_compute; reflexivity|]. split; [eexists; vm_compute; reflexivity|]. split; [reflexivity|]. eexists. vm_compute. reflexivity.
Qed.
(** each way to blame a token occurs *)
Definition said (s m : string) : Prop := exists w, parse anyfloat (B s) = Error (B m ++ w).
Example C59_shapes :
  said "{ a " "parser error: unexpected token found at line: 1, column: 5. Found: EOF ''." /\ said "{ a(b: ) }" "TODO: see `parseDefinition`" /\
  said "{ a(b: 99999999999999999999" "strconv.Atoi: parsing ""99999999999999999999"": value out of range" /\
  said "enum E { A true B }" "parser error: unexpected token found at line: 1, column: 12. Found: Name 'true'." /\
  said "fragment on on A { a }" "parser error: unexpected token found at line: 1, column: 13. Found: Name 'on'." /\
  said "fragment f on [A] { a }" "parser error: unexpected token found at line: 1, column: 19. Found: Punctuator '{'.".
Proof. repeat split; eexists; vm_compute; reflexivity. Qed.
(** the end of the source is to blame, and more lines make it a document; a refused number, and none do *)
Example C59_lines : exists m d, parse anyfloat (utf8s (src "type A {")) = Error m /\ parse anyfloat (utf8s (src "type A {" ++ 10%Z :: src " f: B }")) = Doc d.
Proof. do 2 eexists. split; vm_compute; reflexivity. Qed.
