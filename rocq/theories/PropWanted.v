(** * PropWanted: property theorem C56 — what a parse error says is wanted is accepted at that place.
    Model: [Parser.parse]; proofs in ParserWanted.v. *)
From Verif Require Import Base Utf8 Lexer LexerTotal LexSpec AST Parser Grammar GrammarProps ParserWp ParserSound PropParse ParserLocal PropParseErr ParsedNames SchemaSpec NameTokens ParserWanted.

(** *** Specification. *)
(** The text of what is wanted: [ Wanted: Name 'query|mutation' or Punctuator '{'.]  ([wish], [render], [fits], [plain_wish]: top of ParserWanted.v.) *)
Definition wish_text (w : wish) : bytes :=
  match w with Tok k ls => kind_name k ++ B " '" ++ joinb (B "|") ls ++ B "'" | Phrase s => s end.
Definition wanted_text (W : list wish) : bytes := match W with [] => [] | _ => B " Wanted: " ++ joinb (B " or ") (map wish_text W) ++ B "." end.
(** The message complains about the token [t] and says that [W] is wanted. *)
Definition complains (msg : bytes) (t : token) (W : list wish) : Prop :=
  msg = B "parser error: unexpected token found at line: " ++ itoa (Z.of_nat (tline t)) ++ B ", column: " ++ itoa (tcol t)
        ++ B ". Found: " ++ kind_name (tkind t) ++ B " '" ++ tlit t ++ B "'." ++ wanted_text W.
Definition readable (W : list wish) : Prop := forallb plain_wish W = true.
(** The errors of another kind: no position; a number that strconv refuses, just read; a reserved word as an enum value, just read. *)
Definition elsewhere (msg : bytes) (pre : list token) : Prop :=
  msg = B "TODO: see `parseDefinition`" \/
  exists p u, pre = p ++ [u] /\ (bad_number msg u \/ tkind u = KName /\ In (tlit u) [B "true"; B "false"; B "null"] /\ complains msg u [Tok KName [B "valid enum value"]]).
(** The parser has got beyond the tokens [pre] and the one after them. *)
Definition gets_past (fok : bytes -> bool) (i : bytes) (ts pre : list token) : Prop :=
  match parse fok i with
  | Doc _ | GoPanic => True
  | Error msg => exists pre2 t2 post2, ts = pre2 ++ t2 :: post2 /\ List.length pre < List.length pre2 /\ ((exists W, readable W /\ complains msg t2 W) \/ elsewhere msg pre2)
  | Diverges => False
  end.

(** *** The rendering of the wishes can be read back. *)
Lemma split_first (q : byte) a b a' b' : ~ In q a -> ~ In q a' -> a ++ q :: b = a' ++ q :: b' -> a = a' /\ b = b'.
Proof.
  revert a'. induction a as [|x a IH]; intros [|y a'] Ha Ha' E; cbn [app] in E.
  - split; congruence.
  - exfalso. apply Ha'. left. congruence.
  - exfalso. apply Ha. left. congruence.
  - destruct (IH a') as [-> ->]; [intros H; apply Ha; right; exact H|intros H; apply Ha'; right; exact H|congruence|]. split; congruence.
Qed.
Definition bar : byte := "|"%char.
Definition tick : byte := "'"%char.
Lemma plain_lit l : (negb (beqb l []) && negb (existsb (fun b => Ascii.eqb b "|" || Ascii.eqb b "'") l))%bool = true -> l <> [] /\ ~ In bar l /\ ~ In tick l.
Proof.
  rewrite andb_true_iff, !negb_true_iff. intros [H1 H2]. split; [intros ->; discriminate|].
  assert (H : forall b, In b l -> (Ascii.eqb b "|" || Ascii.eqb b "'")%bool = false). { intros b Hb. destruct (Ascii.eqb b "|" || Ascii.eqb b "'")%bool eqn:E; [|reflexivity]. rewrite <- H2. symmetry. apply existsb_exists. eauto. }
  split; intros Hi; specialize (H _ Hi); discriminate.
Qed.
Definition lits (ls : list bytes) : Prop := Forall (fun l => l <> [] /\ ~ In bar l /\ ~ In tick l) ls.
Lemma join_no_tick ls : lits ls -> ~ In tick (joinb (B "|") ls).
Proof.
  induction 1 as [|x l [_ [_ Hx]] Hl IH]; [intros []|]. destruct l as [|y l]; [exact Hx|]. cbn [joinb]. intros Hi. apply in_app_or in Hi. destruct Hi as [Hi|Hi]; [tauto|]. apply in_app_or in Hi. destruct Hi as [[Hi|[]]|Hi]; [discriminate|tauto].
Qed.
Lemma join_inj ls : forall ls', lits ls -> lits ls' -> joinb (B "|") ls = joinb (B "|") ls' -> ls = ls'.
Proof.
  induction ls as [|x ls IH]; intros [|y ls'] H H' E; [reflexivity|..].
  - exfalso. inversion_clear H' as [|? ? [Hy _] _]. destruct ls'; cbn [joinb] in E; [congruence|]. destruct y; [congruence|discriminate].
  - exfalso. inversion_clear H as [|? ? [Hy _] _]. destruct ls; cbn [joinb] in E; [congruence|]. destruct x; [congruence|discriminate].
  - inversion_clear H as [|? ? [Hx [Hb _]] Hl]. inversion_clear H' as [|? ? [Hx' [Hb' _]] Hl'].
    destruct ls as [|x2 ls], ls' as [|y2 ls'].
    + cbn [joinb] in E. congruence.
    + exfalso. cbn [joinb] in E. apply Hb. rewrite E. apply in_or_app. right. left. reflexivity.
    + exfalso. cbn [joinb] in E. apply Hb'. rewrite <- E. apply in_or_app. right. left. reflexivity.
    + destruct (split_first bar x (joinb (B "|") (x2 :: ls)) y (joinb (B "|") (y2 :: ls')) Hb Hb' E) as [-> E2]. f_equal. apply IH; assumption.
Qed.
Lemma plain_lits k ls : plain_wish (Tok k ls) = true -> k <> KEOF /\ k <> KIllegal /\ lits ls.
Proof.
  intros H. cbn [plain_wish] in H. rewrite !andb_true_iff in H. destruct H as [[H1 H2] H3]. split; [intros ->; discriminate|]. split; [intros ->; discriminate|].
  apply Forall_forall. intros l Hl. apply plain_lit. rewrite forallb_forall in H3. exact (H3 l Hl).
Qed.
Lemma kind_no_tick k : ~ In tick (kind_name k ++ B " ").
Proof. destruct k; intros H; repeat (destruct H as [H|H]; [discriminate|]); destruct H. Qed.
Lemma kind_name_inj k k' : kind_name k ++ B " " = kind_name k' ++ B " " -> k = k'.
Proof. destruct k, k'; intros H; first [reflexivity|discriminate]. Qed.
Lemma text_shape k ls T : wish_text (Tok k ls) ++ T = (kind_name k ++ B " ") ++ tick :: joinb (B "|") ls ++ tick :: T.
Proof. cbn [wish_text]. rewrite <- !app_assoc. reflexivity. Qed.
Lemma phrase_not_tok k X Y : B "NamedType" ++ X <> (kind_name k ++ B " ") ++ Y.
Proof. destruct k; discriminate. Qed.
Lemma wish_inj w w' T T' : plain_wish w = true -> plain_wish w' = true -> wish_text w ++ T = wish_text w' ++ T' -> w = w' /\ T = T'.
Proof.
  destruct w as [k ls|s], w' as [k' ls'|s']; intros H H' E.
  - destruct (plain_lits _ _ H) as (_ & _ & Hl). destruct (plain_lits _ _ H') as (_ & _ & Hl'). rewrite !text_shape in E.
    apply split_first in E; [|apply kind_no_tick..]. destruct E as [Ek E]. apply kind_name_inj in Ek. apply split_first in E; [|apply join_no_tick; assumption..]. destruct E as [Ej ->].
    apply join_inj in Ej; [|assumption..]. subst. split; reflexivity.
  - exfalso. apply beqb_true in H'. rewrite H', text_shape in E. symmetry in E. exact (phrase_not_tok _ _ _ E).
  - exfalso. apply beqb_true in H. rewrite H, text_shape in E. exact (phrase_not_tok _ _ _ E).
  - apply beqb_true in H. apply beqb_true in H'. subst. cbn [wish_text] in E. apply app_inv_head in E. split; [reflexivity|exact E].
Qed.
Definition more (W : list wish) : bytes := List.concat (map (fun w => B " or " ++ wish_text w) W).
Lemma joins w W : joinb (B " or ") (map wish_text (w :: W)) = wish_text w ++ more W.
Proof.
  revert w. induction W as [|x W IH]; intros w; [cbn; rewrite app_nil_r; reflexivity|].
  change (joinb (B " or ") (map wish_text (w :: x :: W))) with (wish_text w ++ B " or " ++ joinb (B " or ") (map wish_text (x :: W))). rewrite IH. cbn [more map List.concat]. rewrite <- app_assoc. reflexivity.
Qed.
Lemma more_inj W : forall W', readable W -> readable W' -> more W = more W' -> W = W'.
Proof.
  unfold readable. induction W as [|w W IH]; intros [|w' W'] H H' E; [reflexivity|discriminate|discriminate|]. cbn [forallb] in *. apply andb_true_iff in H. apply andb_true_iff in H'.
  unfold more in E. cbn [map List.concat] in E. rewrite <- !app_assoc in E. apply app_inv_head in E. apply wish_inj in E; [|tauto..]. destruct E as [-> E]. f_equal. apply IH; tauto.
Qed.
Lemma wanted_inj W W' : readable W -> readable W' -> wanted_text W = wanted_text W' -> W = W'.
Proof.
  destruct W as [|w W], W' as [|w' W']; intros H H' E; [reflexivity|discriminate|discriminate|]. unfold wanted_text in E. apply app_inv_head, app_inv_tail in E. rewrite !joins in E.
  unfold readable in *. cbn [forallb] in *. apply andb_true_iff in H. apply andb_true_iff in H'. apply wish_inj in E; [|tauto..]. destruct E as [-> E]. f_equal. apply more_inj; [apply H|apply H'|exact E].
Qed.
Lemma complains_unexpected t W : unexpected t (map render W) = B "parser error: unexpected token found at line: " ++ itoa (Z.of_nat (tline t)) ++ B ", column: " ++ itoa (tcol t)
        ++ B ". Found: " ++ kind_name (tkind t) ++ B " '" ++ tlit t ++ B "'." ++ wanted_text W.
Proof. destruct W; reflexivity. Qed.
Lemma complains_fun msg t W W' : readable W -> readable W' -> complains msg t W -> complains msg t W' -> W = W'.
Proof. intros H H' -> E. unfold complains in E. do 9 apply app_inv_head in E. apply wanted_inj; assumption. Qed.

(** *** The theorem. *)
Lemma other_elsewhere e s : other e s -> elsewhere e s.
Proof.
  intros [H|(p & u & -> & H)]; [left; exact H|right]. exists p, u. split; [reflexivity|]. destruct H as [(Hl & Hk & ->)|[(Hk & ->)|(Hk & ->)]].
  - right. split; [exact Hk|]. split; [|exact (complains_unexpected u [Tok KName [B "valid enum value"]])]. apply existsb_exists in Hl. destruct Hl as (y & Hy & E). apply beqb_true in E. rewrite E. destruct Hy as [<-|[<-|[<-|[]]]]; cbn [In]; auto.
  - left. apply int_bad; assumption.
  - left. apply float_bad; assumption.
Qed.
Lemma not_from_text i n : name_in i n -> n <> B "!on" /\ n <> B "valid enum value".
Proof.
  intros (q & r & _ & H).
  assert (H1 : exists p, n = p \/ exists b, n = p ++ [b]) by (exists n; auto).
  assert (P : forall p, proper_name p -> (forall x y, p = x ++ " "%char :: y -> False) /\ (forall x, p = "!"%char :: x -> False) /\ p <> []).
  { intros p (c & l & -> & Hc & Hl). assert (Hall : Forall (fun b => letter (zb b) \/ digit (zb b)) (c :: l)) by (constructor; auto). split; [|split; [|discriminate]].
    - intros x y E. rewrite E in Hall. apply Forall_app in Hall. destruct Hall as [_ Hall]. inversion_clear Hall as [|? ? Hs _]. unfold letter, digit in Hs. cbn in Hs. lia.
    - intros x E. injection E as -> _. unfold letter in Hc. cbn in Hc. lia. }
  destruct H as [H|(p & b & -> & H & _)].
  - destruct (P n H) as (P1 & P2 & _). split; intros ->; [exact (P2 _ eq_refl)|exact (P1 (B "valid") _ eq_refl)].
  - destruct (P p H) as (P1 & P2 & P3). destruct p as [|x p]; [congruence|]. split; intros E.
    + apply (P2 p). injection E as -> _. reflexivity.
    + assert (Hp : x :: p = B "valid enum valu"). { apply (f_equal (@removelast _)) in E. rewrite removelast_last in E. exact E. } exact (P1 (B "valid") (B "enum valu") Hp).
Qed.
Lemma other_dec e s : other e s \/ ~ other e s.
Proof.
  assert (D : forall a b : bytes, a = b \/ a <> b). { intros a b. destruct (beqb a b) eqn:E; [left; apply beqb_true, E|right; intros ->; rewrite beqb_refl in E; discriminate]. }
  assert (K : forall a b : kind, a = b \/ a <> b) by (intros [] []; first [left; reflexivity|right; discriminate]).
  unfold other. destruct (D e (B "TODO: see `parseDefinition`")) as [H|H]; [left; left; exact H|].
  destruct s as [|x s]; [right; intros [Z|(p & u & E & _)]; [tauto|destruct p; discriminate]|]. destruct (@exists_last _ (x :: s)) as (p & u & ->); [discriminate|]. clear x s.
  assert (U : forall p1 u1, p ++ [u] = p1 ++ [u1] -> u1 = u) by (intros p1 u1 E; apply app_inj_tail in E; symmetry; apply E).
  destruct (bool_dec (inb (tlit u) [B "false"; B "true"; B "null"]) true) as [Hl|Hl], (K (tkind u) KName) as [Hn|Hn], (D e (unexpected u [expected KName [B "valid enum value"]])) as [He|He];
    try (left; right; exists p, u; split; [reflexivity|]; left; auto; fail);
  (destruct (K (tkind u) KInt) as [Hk|Hk], (D e (number_error (B "Atoi") (tlit u))) as [Ha|Ha]; try (left; right; exists p, u; split; [reflexivity|]; right; left; auto; fail));
  (destruct (K (tkind u) KFloat) as [Hq|Hq], (D e (number_error (B "ParseFloat") (tlit u))) as [Hb|Hb]; try (left; right; exists p, u; split; [reflexivity|]; right; right; auto; fail));
  right; (intros [Z|(p1 & u1 & E & Z)]; [tauto|rewrite (U _ _ E) in Z; clear E U; tauto]).
Qed.
Definition c0 : counts := mkC 0 0 0 0 0 0 [].
Lemma error_loop fok i ts m msg : tokens i ts -> List.length ts <= m -> parse fok i = Error msg -> exists pre t post, ts = pre ++ t :: post /\ parse_loop fok m m c0 ts = PErr msg (t :: post).
Proof.
  intros Ht Hm Hp. destruct (parse_loop_returns fok i ts Ht) as [Hr1 Hr2].
  assert (Hts : ts <> []). { destruct (tokens_wf i) as (ts0 & Ht0 & Hw). rewrite (tokens_fun _ _ _ Ht Ht0). intros ->. destruct (wf_cons _ Hw) as (? & ? & ?). discriminate. }
  rewrite (parse_eq fok i ts Ht) in Hp. unfold parse_tokens, pbind in Hp. fold c0 in *. rewrite (fuel_up fok c0 m ts Hm Hr1 Hr2).
  destruct (parse_loop fok (List.length ts) (List.length ts) c0 ts) as [x s|e s|c] eqn:E; [discriminate| |destruct c; discriminate]. injection Hp as ->.
  pose proof (loc_parse_loop (hd (mkTok KEOF [] 0 0) s) (tl s) (tl s) fok (List.length ts) (List.length ts) (le_n _) (List.length ts) (List.length ts) [] c0 (le_n _) ts Hts) as H.
  rewrite E in H. destruct H as (pre & Ep & Hs & _ & _). destruct s as [|t post]; [congruence|]. exists pre, t, post. split; [exact Ep|reflexivity].
Qed.
(** what an error is, whatever comes instead *)
Lemma loop_error fok n m pre t post msg : parse_loop fok n m c0 (pre ++ t :: post) = PErr msg (t :: post) -> (exists W, readable W /\ complains msg t W) \/ elsewhere msg pre.
Proof.
  intros E. destruct (loop_says t (mkTok KPunct (B "}") 0 0) post [] ltac:(discriminate) ltac:(discriminate) ltac:(discriminate) fok n m c0 pre msg E) as [(W & EW & Hpl & _)|Ho].
  - left. exists W. split; [exact Hpl|]. rewrite EW. apply complains_unexpected.
  - right. apply other_elsewhere, Ho.
Qed.

Theorem C56_wanted_is_accepted : forall fok i ts msg, tokens i ts -> parse fok i = Error msg ->
  exists pre t post, ts = pre ++ t :: post /\
    (elsewhere msg pre \/
     exists W, readable W /\ complains msg t W /\ (forall W', readable W' -> complains msg t W' -> W' = W) /\
       forall k ls t' i' post', In (Tok k ls) W -> fits k ls t' -> tokens i' (pre ++ t' :: post') ->
         gets_past fok i' (pre ++ t' :: post') pre \/ ends_string pre).
Proof.
  intros fok i ts msg Ht Hp. destruct (error_loop fok i ts (List.length ts) msg Ht (le_n _) Hp) as (pre & t & post & -> & E). exists pre, t, post. split; [reflexivity|].
  destruct (other_dec msg pre) as [Ho|No]; [left; apply other_elsewhere, Ho|].
  destruct (loop_error fok _ _ pre t post msg E) as [(W & HW & Hc)|He]; [right|left; exact He]. exists W. split; [exact HW|]. split; [exact Hc|]. split; [intros W' HW' Hc'; exact (complains_fun _ _ _ _ HW' HW Hc' Hc)|].
  intros k ls t' i' post' Hi Hf Ht'. set (ts := pre ++ t :: post) in *. set (ts' := pre ++ t' :: post') in *.
  assert (Hk : k <> KEOF /\ k <> KIllegal). { unfold readable in HW. rewrite forallb_forall in HW. destruct (plain_lits k ls (HW _ Hi)) as (H1 & H2 & _). auto. }
  assert (Hk' : tkind t' = k) by apply Hf. destruct Hk as [Hk1 Hk2]. rewrite <- Hk' in Hk1, Hk2.
  assert (Hreal : tkind t' = KName -> tlit t' <> B "!on" /\ tlit t' <> B "valid enum value").
  { intros Hn. pose proof (tokens_text i' ts' Ht') as Hall. rewrite Forall_forall in Hall. apply (not_from_text i'), (Hall t'); [apply in_or_app; right; left; reflexivity|exact Hn]. }
  set (m := Nat.max (List.length ts) (List.length ts')). destruct (error_loop fok i ts m msg Ht ltac:(lia) Hp) as (pre1 & t1 & post1 & E1 & El).
  destruct (parse_loop_returns fok i ts Ht) as [Hr1 Hr2]. fold c0 in *. assert (El' : parse_loop fok m m c0 ts = PErr msg (t :: post)) by (rewrite (fuel_up fok c0 m ts ltac:(lia) Hr1 Hr2); exact E).
  pose proof (loop_says t t' post post' Hk1 Hk2 Hreal fok m m c0 pre msg El') as Hs. fold ts' in Hs.
  destruct Hs as [(W1 & EW & Hpl & Hs)|Ho]; [|elim (No Ho)].
  - assert (W1 = W) as -> by (apply (complains_fun msg t); [exact Hpl|exact HW|rewrite EW; apply complains_unexpected|exact Hc]).
    destruct (Hs k ls Hi Hf) as [Hb|Hb]; [left|right; exact Hb]. unfold gets_past. destruct (parse fok i') as [d|msg2| |] eqn:Ep; [exact I| |exact I|exact (C10_parse_terminates fok i' Ep)].
    destruct (error_loop fok i' ts' m msg2 Ht' ltac:(lia) Ep) as (pre2 & t2 & post2 & E2 & El2). exists pre2, t2, post2. split; [exact E2|].
    rewrite El2 in Hb. cbn in Hb. split.
    + destruct Hb as (q & Hq). unfold ts' in E2. rewrite Hq in E2. rewrite app_comm_cons, app_assoc in E2. apply app_inv_tail in E2. rewrite <- E2, app_length. cbn. lia.
    + rewrite E2 in El2. exact (loop_error fok _ _ pre2 t2 post2 msg2 El2).
Qed.
Print Assumptions C56_wanted_is_accepted.

(** The hypotheses are met: [type A { f }] is refused at "}" with [Wanted: Punctuator ':'.]; and a colon there is accepted. *)
Example C56_nonvacuous : exists pre t post,
  tokens (B "type A { f }") (pre ++ t :: post) /\ exists msg, parse anyfloat (B "type A { f }") = Error msg /\ complains msg t [Tok KPunct [B ":"]] /\ readable [Tok KPunct [B ":"]] /\
  exists t' post', fits KPunct [B ":"] t' /\ tokens (B "type A { f : Int }") (pre ++ t' :: post') /\ ~ ends_string pre /\ exists d, parse anyfloat (B "type A { f : Int }") = Doc d.
Proof.
  assert (H : exists ts, tokens (B "type A { f }") ts) by (eexists; eexists; vm_compute; reflexivity).
  exists [mkTok KName (B "type") 1 1; mkTok KName (B "A") 1 6; mkTok KPunct (B "{") 1 8; mkTok KName (B "f") 1 10], (mkTok KPunct (B "}") 1 12), [mkTok KEOF [] 1 13].
  split; [eexists; vm_compute; reflexivity|]. eexists. split; [vm_compute; reflexivity|]. split; [vm_compute; reflexivity|]. split; [reflexivity|].
  exists (mkTok KPunct (B ":") 1 12), [mkTok KName (B "Int") 1 14; mkTok KPunct (B "}") 1 18; mkTok KEOF [] 1 19]. split; [split; [reflexivity|right; left; reflexivity]|].
  split; [eexists; vm_compute; reflexivity|]. split.
  - intros (s0 & u & E & Hu). change ([mkTok KName (B "type") 1 1; mkTok KName (B "A") 1 6; mkTok KPunct (B "{") 1 8] ++ [mkTok KName (B "f") 1 10] = s0 ++ [u]) in E. apply app_inj_tail in E. destruct E as [_ <-]. discriminate.
  - eexists. vm_compute. reflexivity.
Qed.
(** The exception is real: after a description the message still offers the keywords of operations and fragments, and refuses them all the same. *)
Theorem C56_refuted_after_description : forall fok,
  parse fok (B """d"" x") = Error (B "parser error: unexpected token found at line: 1, column: 5. Found: Name 'x'. Wanted: Name 'query|mutation|fragment' or Punctuator '{'.") /\
  parse fok (B """d"" query { a }") = Error (B "parser error: unexpected token found at line: 1, column: 5. Found: Name 'query'. Wanted: Name 'query|mutation|fragment' or Punctuator '{'.").
Proof. intros fok. split; vm_compute; reflexivity. Qed.
Print Assumptions C56_refuted_after_description.
(** And a wanted list need not be complete: no type system keyword is mentioned where one is accepted. *)
Example C56_not_complete : parse anyfloat (B "x") = Error (B "parser error: unexpected token found at line: 1, column: 1. Found: Name 'x'. Wanted: Name 'query|mutation|fragment' or Punctuator '{'.") /\
  exists d, parse anyfloat (B "scalar S") = Doc d.
Proof. split; [vm_compute; reflexivity|]. eexists. vm_compute. reflexivity. Qed.
