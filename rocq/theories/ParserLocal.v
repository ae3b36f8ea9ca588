(** * ParserLocal: a parse error depends only on the tokens up to the one it is reported at, and says which token that is. *)
From Verif Require Import Base Utf8 Lexer AST Parser Grammar ParserWp.
Local Open Scope p_scope.

(** What an error message is about: the token at the head of the remaining ones, or the last token consumed. *)
Definition todo : bytes := B "TODO: see `parseDefinition`".
Definition blame (e : bytes) (p s : list token) : Prop :=
  (exists t s', s = t :: s' /\ ((exists ws, e = unexpected t ws) \/ e = todo)) \/
  (exists p' u, p = p' ++ [u] /\
    ((exists ws, e = unexpected u ws) \/
     (tkind u = KInt /\ e = number_error (B "Atoi") (tlit u)) \/
     (tkind u = KFloat /\ e = number_error (B "ParseFloat") (tlit u)))).
Lemma blame_weaken e x p s : blame e p s -> blame e (x ++ p) s.
Proof. intros [H|(p' & u & -> & H)]; [left; exact H|right]. exists (x ++ p'), u. split; [apply app_assoc|exact H]. Qed.

Section Local.
(** Two token lists that share everything up to and including the token [h]. *)
Variables (h : token) (r r' : list token).
Notation T := (h :: r).
Notation T' := (h :: r').
Definition ok {A} (pre : list token) (m m' : P A) : Prop := forall ts, ts <> [] ->
  match m ts with
  | POk a s => exists p, ts = p ++ s /\ s <> [] /\ forall q q1, ts = q ++ T -> s = q1 ++ T -> m' (q ++ T') = POk a (q1 ++ T')
  | PErr e s => exists p, ts = p ++ s /\ s <> [] /\ blame e (pre ++ p) s /\
                  forall q q1, ts = q ++ T -> s = q1 ++ T -> m' (q ++ T') = PErr e (q1 ++ T')
  | PCrash NilDeref => forall q, ts = q ++ T -> r = [] -> r' = [] -> m' ts = PCrash NilDeref
  | PCrash _ => True
  end.

Lemma app_T_inj (q q1 : list token) : q ++ T = q1 ++ T -> q = q1.
Proof. apply app_inv_tail. Qed.
(** a state between two states that end in [T] ends in [T] *)
Lemma between (p s p2 q q1 : list token) : p ++ s = q ++ T -> s = p2 ++ q1 ++ T -> s = (p2 ++ q1) ++ T.
Proof. intros _ ->. apply app_assoc. Qed.
Lemma last_T (p s q : list token) : p ++ s = q ++ T -> s <> [] -> r = [] -> exists q1, s = q1 ++ T.
Proof.
  intros E Hs ->. destruct (exists_last Hs) as (s' & x & ->). rewrite app_assoc in E. apply app_inj_tail in E. destruct E as [_ ->]. exists s'. reflexivity.
Qed.

Lemma ok_weaken {A} pre x (m m' : P A) : ok pre m m' -> ok (x ++ pre) m m'.
Proof.
  intros H ts Hts. specialize (H ts Hts). destruct (m ts) as [a s|e s|c]; try exact H.
  destruct H as (p & E & Hs & Hb & H). exists p. split; [exact E|]. split; [exact Hs|]. split; [|exact H]. rewrite <- app_assoc. apply blame_weaken, Hb.
Qed.
Lemma ok_nil {A} pre (m m' : P A) : ok [] m m' -> ok pre m m'.
Proof. intros H. rewrite <- (app_nil_r pre). apply ok_weaken, H. Qed.
Lemma ok_ret {A} pre (a : A) : ok pre (pret a) (pret a).
Proof.
  intros ts Hts. exists []. split; [reflexivity|]. split; [exact Hts|]. intros q q1 E E1. rewrite E in E1. apply app_T_inj in E1. subst q1. reflexivity.
Qed.
Lemma ok_bind_after {A C} pre (m m' : P A) (k k' : A -> P C) : ok pre m m' -> (forall a p s, m (p ++ s) = POk a s -> ok p (k a) (k' a)) -> ok pre (pbind m k) (pbind m' k').
Proof.
  intros Hm Hk ts Hts. unfold pbind. specialize (Hm ts Hts). destruct (m ts) as [a s|e s|[]] eqn:Em; try exact I.
  - destruct Hm as (p & E & Hs & Hm). specialize (Hk a p s ltac:(congruence) s Hs). destruct (k a s) as [b s2|e s2|[]]; try exact I.
    + destruct Hk as (p2 & E2 & Hs2 & Hk). exists (p ++ p2). split; [rewrite <- app_assoc; congruence|]. split; [exact Hs2|].
      intros q q1 Eq E1. subst s2. rewrite app_assoc in E2. rewrite (Hm q (p2 ++ q1) Eq E2), (Hk _ q1 E2 eq_refl). reflexivity.
    + destruct Hk as (p2 & E2 & Hs2 & Hb & Hk). exists (p ++ p2). split; [rewrite <- app_assoc; congruence|]. split; [exact Hs2|]. split; [apply blame_weaken, Hb|].
      intros q q1 Eq E1. subst s2. rewrite app_assoc in E2. rewrite (Hm q (p2 ++ q1) Eq E2), (Hk _ q1 E2 eq_refl). reflexivity.
    + intros q Eq Er Er'. destruct (last_T p s q ltac:(congruence) Hs Er) as (q1 & E1). rewrite Eq. pose proof (Hm q q1 Eq E1) as H. rewrite Er in *. rewrite Er' in H. rewrite H.
      rewrite <- E1. apply (Hk q1 E1 eq_refl Er').
  - destruct Hm as (p & E & Hs & Hb & Hm). exists p. split; [exact E|]. split; [exact Hs|]. split; [exact Hb|]. intros q q1 Eq E1. rewrite (Hm q q1 Eq E1). reflexivity.
  - intros q Eq Er Er'. rewrite (Hm q Eq Er Er'). reflexivity.
Qed.
Lemma ok_bind {A C} pre (m m' : P A) (k k' : A -> P C) : ok pre m m' -> (forall a, ok [] (k a) (k' a)) -> ok pre (pbind m k) (pbind m' k').
Proof. intros Hm Hk. apply ok_bind_after; [exact Hm|]. intros a p s _. apply ok_nil, Hk. Qed.
Lemma ok_tok pre : ok pre tok tok.
Proof.
  intros [|t ts] Hts; [congruence|]. cbn. exists []. split; [reflexivity|]. split; [discriminate|]. intros q q1 E E1. rewrite E in E1. apply app_T_inj in E1. subst q1.
  destruct q; cbn in *; injection E as -> _; reflexivity.
Qed.
Lemma ok_fail {A} e : (forall t, blame e [] [t]) -> ok (A := A) [] (pfail e) (pfail e).
Proof.
  intros Hb [|t ts] Hts; [congruence|]. exists []. split; [reflexivity|]. split; [discriminate|]. split.
  - destruct (Hb t) as [(t' & s' & E & H)|([|] & u & E & _)]; try discriminate. left. exists t, ts. injection E as -> _. auto.
  - intros q q1 E E1. rewrite E in E1. apply app_T_inj in E1. subst q1. reflexivity.
Qed.
Lemma ok_todo {A} : ok (A := A) [] (pfail todo) (pfail todo).
Proof. apply ok_fail. intros t. left. exists t, []. auto. Qed.
Lemma ok_crash {A} pre : ok (A := A) pre (pcrash NilDeref) (pcrash NilDeref).
Proof. intros ts Hts. cbn. reflexivity. Qed.
Lemma ok_fuel {A} pre (m' : P A) : ok pre (pcrash OutOfFuel) m'.
Proof. intros ts Hts. exact I. Qed.
(** an error about the current token *)
Lemma ok_here {A} (f : token -> bytes) : (forall t, exists ws, f t = unexpected t ws) -> ok (A := A) [] (t <- tok ;; pfail (f t)) (t <- tok ;; pfail (f t)).
Proof.
  intros Hf [|t ts] Hts; [congruence|]. cbn. exists []. split; [reflexivity|]. split; [discriminate|]. split.
  - destruct (Hf t) as [ws E]. left. exists t, ts. split; [reflexivity|]. left. exists ws. exact E.
  - intros q q1 E E1. rewrite E in E1. apply app_T_inj in E1. subst q1. destruct q; cbn in *; injection E as -> _; reflexivity.
Qed.
Lemma ok_perr {A} ws : ok (A := A) [] (perr ws) (perr ws).
Proof. apply ok_here. intros t. exists ws. reflexivity. Qed.
(** an error about a token consumed just before *)
Lemma ok_back {A} t e : (exists ws, e = unexpected t ws) \/ (tkind t = KInt /\ e = number_error (B "Atoi") (tlit t)) \/
    (tkind t = KFloat /\ e = number_error (B "ParseFloat") (tlit t)) ->
  ok (A := A) [t] (pfail e) (pfail e).
Proof.
  intros He ts Hts. exists []. split; [reflexivity|]. split; [exact Hts|]. split; [right; exists [], t; split; [reflexivity|exact He]|].
  intros q q1 E E1. rewrite E in E1. apply app_T_inj in E1. subst q1. reflexivity.
Qed.
Lemma ok_advance pre : ok pre advance advance.
Proof.
  intros [|x [|y ts]] Hts; try (congruence || exact I). cbn. exists [x]. split; [reflexivity|]. split; [discriminate|]. intros q q1 E E1.
  assert (Eq : q = x :: q1) by (apply app_T_inj; cbn; congruence). subst q. cbn. destruct q1; reflexivity.
Qed.

Lemma ok_if {A} pre (b : bool) (p q p' q' : P A) : ok pre p p' -> ok pre q q' -> ok pre (if b then p else q) (if b then p' else q').
Proof. destruct b; auto. Qed.
Lemma ok_peek pre p : ok pre (peek p) (peek p).
Proof. apply ok_bind; [apply ok_tok|]. intros t. apply ok_ret. Qed.
Lemma ok_skip pre p : ok pre (skip p) (skip p).
Proof. apply ok_bind; [apply ok_tok|]. intros t. apply ok_if; [|apply ok_ret]. apply ok_bind; [apply ok_advance|]. intros _. apply ok_ret. Qed.
Lemma ok_consume pre p : ok pre (consume p) (consume p).
Proof. apply ok_bind; [apply ok_tok|]. intros t. apply ok_if; [|apply ok_ret]. apply ok_bind; [apply ok_advance|]. intros _. apply ok_ret. Qed.
Lemma ok_must pre p w : ok pre (must p w) (must p w).
Proof.
  apply ok_nil. intros [|t ts] Hts; [congruence|]. unfold must. unfold pbind at 1. cbn [tok]. destruct (p t) eqn:Ep.
  - pose proof (ok_skip [] p (t :: ts) Hts) as H. unfold skip, pbind at 1 in H. cbn [tok] in H. rewrite Ep in H. unfold pbind in *. destruct ts as [|y ts]; [exact I|]. cbn in *.
    destruct H as (x & E & Hs & H). exists x. split; [exact E|]. split; [exact Hs|]. intros q q1 E1 E2. specialize (H q q1 E1 E2).
    destruct q as [|z q]; cbn in *; injection E1 as -> _; rewrite Ep in *.
    + destruct r'; [discriminate|]. cbn in *. unfold pret in *. congruence.
    + destruct (q ++ h :: r') eqn:Eq; [discriminate|]. cbn in *. unfold pret in *. congruence.
  - exists []. split; [reflexivity|]. split; [discriminate|]. split.
    + left. exists t, ts. split; [reflexivity|]. left. eexists. reflexivity.
    + intros q q1 E E1. rewrite E in E1. apply app_T_inj in E1. subst q1. destruct q; cbn in *; injection E as -> _; rewrite Ep; reflexivity.
Qed.
Lemma must_takes p w t q s : must p w (q ++ s) = POk t s -> q = [t].
Proof.
  intros H. destruct (q ++ s) as [|x l] eqn:E; [discriminate|]. unfold must, pbind, pret in H. cbn in H. destruct (p x); [|discriminate]. destruct l as [|y l]; [discriminate|]. cbn in H.
  assert (x = t /\ y :: l = s) as [-> <-] by (split; congruence). change (t :: y :: l) with ([t] ++ y :: l) in E. apply app_inv_tail in E. exact E.
Qed.
Lemma consume_takes p t q s : consume p (q ++ s) = POk (Some t) s -> q = [t] /\ p t = true.
Proof.
  intros H. destruct (q ++ s) as [|x l] eqn:E; [discriminate|]. unfold consume, pbind, pret in H. cbn in H. destruct (p x) eqn:Ep; [|discriminate]. destruct l as [|y l]; [discriminate|]. cbn in H.
  assert (x = t /\ y :: l = s) as [-> <-] by (split; congruence). change (t :: y :: l) with ([t] ++ y :: l) in E. apply app_inv_tail in E. split; assumption.
Qed.
Lemma ok_must_bind {A} pre p w (k k' : token -> P A) : (forall t, ok [t] (k t) (k' t)) -> ok pre (pbind (must p w) k) (pbind (must p w) k').
Proof. intros H. apply ok_bind_after; [apply ok_must|]. intros t q s E. rewrite (must_takes _ _ _ _ _ E). apply H. Qed.
Lemma ok_consume_bind {A} pre p (k k' : option token -> P A) : (forall t, p t = true -> ok [t] (k (Some t)) (k' (Some t))) -> ok [] (k None) (k' None) ->
  ok pre (pbind (consume p) k) (pbind (consume p) k').
Proof. intros H1 H2. apply ok_bind_after; [apply ok_consume|]. intros [t|] q s E; [destruct (consume_takes _ _ _ _ E) as [-> Ht]; apply H1, Ht|apply ok_nil, H2]. Qed.
Lemma ok_not pre m m' : ok pre m m' -> ok pre (pnot m) (pnot m').
Proof. intros H. apply ok_bind; [exact H|]. intros b. apply ok_ret. Qed.
Lemma ok_loop {A} close close' (body body' : P A) : ok [] close close' -> ok [] body body' -> forall n n' pre, n <= n' ->
  ok pre (loop_until n close body) (loop_until n' close' body').
Proof.
  intros Hc Hb. induction n as [|n IH]; intros n' pre Hn; [apply ok_fuel|]. destruct n' as [|n']; [lia|]. cbn [loop_until]. apply ok_nil.
  apply ok_bind; [exact Hc|]. intros c. apply ok_if; [apply ok_ret|]. apply ok_bind; [exact Hb|]. intros a. apply ok_bind; [apply IH; lia|]. intros l. apply ok_ret.
Qed.
Lemma ok_do {A} fin fin' (body body' : P A) : ok [] body body' -> ok [] fin fin' -> forall n n' pre, n <= n' ->
  ok pre (do_loop n body fin) (do_loop n' body' fin').
Proof.
  intros Hb Hc. induction n as [|n IH]; intros n' pre Hn; [apply ok_fuel|]. destruct n' as [|n']; [lia|]. cbn [do_loop]. apply ok_nil.
  apply ok_bind; [exact Hb|]. intros a. apply ok_bind; [exact Hc|]. intros c. apply ok_if; [apply ok_ret|]. apply ok_bind; [apply IH; lia|]. intros l. apply ok_ret.
Qed.

Lemma ok_need pre k l : ok pre (need k l) (need k l).
Proof. apply ok_bind; [apply ok_skip|]. intros b. apply ok_if; [apply ok_ret|apply ok_perr]. Qed.
Lemma ok_at_close pre c : ok pre (at_close c) (at_close c).
Proof. apply ok_bind; [apply ok_peek|]. intros b. apply ok_if; [apply ok_ret|apply ok_peek]. Qed.

Ltac kstep := match goal with
  | |- ok [] (pbind (must0 _) _) _ => apply ok_bind
  | |- ok _ (pbind _ _) _ => apply ok_bind
  | |- ok _ (pret _) _ => apply ok_ret
  | |- ok _ (pcrash NilDeref) _ => apply ok_crash
  | |- ok _ (pcrash OutOfFuel) _ => apply ok_fuel
  | |- ok _ (perr _) _ => apply ok_nil, ok_perr
  | |- ok _ tok _ => apply ok_tok
  | |- ok _ (skip1 _ _) _ => apply ok_skip
  | |- ok _ (peek1 _ _) _ => apply ok_peek
  | |- ok _ (peek0 _) _ => apply ok_peek
  | |- ok _ (peekn _ _) _ => apply ok_peek
  | |- ok _ (peek _) _ => apply ok_peek
  | |- ok _ (must0 _) _ => apply ok_must
  | |- ok _ (must1 _ _) _ => apply ok_must
  | |- ok _ (mustn _ _) _ => apply ok_must
  | |- ok _ (consume0 _) _ => apply ok_consume
  | |- ok _ (consume _) _ => apply ok_consume
  | |- ok _ (need _ _) _ => apply ok_need
  | |- ok _ (pnot _) _ => apply ok_not
  | |- ok _ (at_close _) _ => apply ok_at_close
  | |- ok _ (loop_until _ _ _) _ => apply ok_loop; [| |lia]
  | |- ok _ (do_loop _ _ _) _ => apply ok_do; [| |lia]
  | |- ok _ (if ?b then _ else _) _ => apply ok_if
  | |- forall a, _ => intros ?
  | H : forall pre, ok pre ?p _ |- ok _ ?p _ => apply H
  end.
Ltac ks := repeat kstep.

Variable fok : bytes -> bool.

Lemma loc_type n : forall n' pre, n <= n' -> ok pre (parse_type n) (parse_type n').
Proof.
  induction n as [|n IH]; intros n' pre Hn; [apply ok_fuel|]. destruct n' as [|n']; [lia|]. cbn [parse_type]. apply ok_bind; [ks|]. intros b. apply ok_if; [|ks].
  intros ts Hts. specialize (IH n' [] ltac:(lia) ts Hts). destruct (parse_type n ts) as [it s|e s|[]]; try exact I.
  - destruct IH as (p & E & Hs & H).
    assert (Hk : ok [] (must1 KPunct "]" ;;; nn <- skip1 KPunct "!" ;; pret (TList it nn)) (must1 KPunct "]" ;;; nn <- skip1 KPunct "!" ;; pret (TList it nn))) by ks.
    specialize (Hk s Hs). destruct ((must1 KPunct "]" ;;; nn <- skip1 KPunct "!" ;; pret (TList it nn)) s) as [a s2|e s2|[]] eqn:Ek; try exact I.
    + destruct Hk as (p2 & E2 & Hs2 & Hk). exists (p ++ p2). split; [rewrite <- app_assoc; congruence|]. split; [exact Hs2|].
      intros q q1 Eq E1. subst s2. rewrite app_assoc in E2. rewrite (H q (p2 ++ q1) Eq E2). apply (Hk _ q1 E2 eq_refl).
    + destruct Hk as (p2 & E2 & Hs2 & Hb & Hk). exists (p ++ p2). split; [rewrite <- app_assoc; congruence|]. split; [exact Hs2|]. split; [apply blame_weaken, blame_weaken, Hb|].
      intros q q1 Eq E1. subst s2. rewrite app_assoc in E2. rewrite (H q (p2 ++ q1) Eq E2). apply (Hk _ q1 E2 eq_refl).
    + intros q Eq Er Er'. destruct (last_T p s q ltac:(congruence) Hs Er) as (q1 & E1). rewrite Eq. pose proof (H q q1 Eq E1) as H1. rewrite Er in *. rewrite Er' in H1. rewrite H1.
      rewrite <- E1. exact Ek.
  - destruct IH as (p & E & Hs & _ & H). exists p. split; [exact E|]. split; [exact Hs|]. intros q q1 Eq E1. rewrite (H q q1 Eq E1). reflexivity.
  - intros q Eq Er Er'. rewrite (IH q Eq Er Er'). reflexivity.
Qed.
Ltac tk H := first [eapply H; lia | eapply H].
Lemma loc_value n : forall n' pre, n <= n' -> ok pre (parse_value fok n) (parse_value fok n').
Proof.
  induction n as [|n IH]; intros n' pre Hn; [apply ok_fuel|]. destruct n' as [|n']; [lia|]. cbn [parse_value]. apply ok_nil. apply ok_bind; [ks|]. intros b. apply ok_if; [ks|].
  apply ok_consume_bind; [intros t Ht; apply ParserWp.kind_eqb_true in Ht; destruct (atoi (tlit t)); [ks|apply ok_back; auto]|].
  apply ok_consume_bind; [intros t Ht; apply ParserWp.kind_eqb_true in Ht; apply ok_if; [ks|apply ok_back; auto]|].
  apply ok_consume_bind; [intros t _; ks|]. apply ok_consume_bind; [intros t _; ks|]. apply ok_bind; [ks|]. intros b1. apply ok_if; [ks|].
  apply ok_consume_bind; [intros t _; ks|]. apply ok_bind; [ks|]. intros b2. apply ok_if; [ks; apply IH; lia|]. apply ok_bind; [ks|]. intros b3. apply ok_if; [|apply ok_todo].
  unfold parse_object_field. ks. apply IH; lia.
Qed.
Section Fuel.
Variables n n' : nat.
Hypothesis Hn : n <= n'.
Lemma loc_default pre : ok pre (parse_default fok n) (parse_default fok n').
Proof. unfold parse_default. ks. apply loc_value, Hn. Qed.
Lemma loc_args pre : ok pre (parse_arguments fok n) (parse_arguments fok n').
Proof. unfold parse_arguments. ks. unfold parse_argument. ks. apply loc_value, Hn. Qed.
Lemma loc_dirs pre l : ok pre (parse_directives fok n l) (parse_directives fok n' l).
Proof. pose proof loc_args. unfold parse_directives. ks. unfold parse_directive. ks. Qed.
Lemma loc_named_only pre t : ok pre (named_only t) (named_only t).
Proof. destruct t; cbn; ks. Qed.
Lemma loc_cond pre : ok pre (parse_type_condition n) (parse_type_condition n').
Proof. unfold parse_type_condition. ks. apply loc_type, Hn. apply loc_named_only. Qed.
End Fuel.
Lemma loc_selset n : forall n' pre o, n <= n' -> ok pre (parse_selset fok n o) (parse_selset fok n' o).
Proof.
  induction n as [|n IH]; intros n' pre o Hn; [apply ok_fuel|]. destruct n' as [|n']; [lia|]. cbn [parse_selset].
  assert (Hn1 : n <= n') by lia. pose proof (loc_args n n' Hn1). pose proof (loc_cond n n' Hn1). pose proof (loc_dirs n n' Hn1).
  repeat (first [match goal with H : forall pre l, ok pre _ _ |- ok _ (parse_directives _ _ _) _ => apply H end | apply IH; exact Hn1 | kstep | progress unfold parse_selection, parse_spread, parse_inline, parse_field]).
Qed.
Section Fuel2.
Variables n n' : nat.
Hypothesis Hn : n <= n'.
Ltac kk := repeat (first [kstep | apply loc_type; exact Hn | apply loc_dirs; exact Hn | apply loc_selset; exact Hn | apply loc_named_only | match goal with H : forall pre x, ok pre _ _ |- _ => apply H end]).
Lemma loc_vardefs pre : ok pre (parse_vardefs fok n) (parse_vardefs fok n').
Proof. pose proof (loc_default _ _ Hn). unfold parse_vardefs. kk. unfold parse_vardef. kk. Qed.
Lemma loc_optype pre : ok pre parse_optype parse_optype.
Proof. unfold parse_optype. kk. Qed.
Lemma loc_operation pre b : ok pre (parse_operation fok n b) (parse_operation fok n' b).
Proof.
  pose proof loc_optype. pose proof loc_vardefs. unfold parse_operation. kk.
Qed.
Lemma loc_fragment pre : ok pre (parse_fragment fok n) (parse_fragment fok n').
Proof.
  pose proof (loc_cond _ _ Hn). unfold parse_fragment. apply ok_bind; [kk|]. intros b. apply ok_if; [kk|]. apply ok_consume_bind; [|kk]. intros t _.
  apply ok_if; [kk|]. kk.
Qed.
Lemma loc_desc pre : ok pre parse_desc parse_desc.
Proof. unfold parse_desc. kk. Qed.
Lemma loc_ivdef pre l : ok pre (parse_ivdef fok n l) (parse_ivdef fok n' l).
Proof.
  pose proof loc_desc. pose proof (loc_default _ _ Hn). unfold parse_ivdef. kk.
Qed.
Lemma loc_argdefs pre : ok pre (parse_argdefs fok n) (parse_argdefs fok n').
Proof. unfold parse_argdefs. pose proof loc_ivdef. kk. Qed.
Lemma loc_fielddefs pre : ok pre (parse_fielddefs fok n) (parse_fielddefs fok n').
Proof. pose proof loc_desc. pose proof loc_argdefs. unfold parse_fielddefs. kk. unfold parse_fielddef. kk. Qed.
Lemma loc_enumvals pre : ok pre (parse_enumvals fok n) (parse_enumvals fok n').
Proof.
  pose proof loc_desc. unfold parse_enumvals. kk. unfold parse_enumval. apply ok_bind; [kk|]. intros d. apply ok_must_bind. intros t. apply ok_if; [apply ok_back; left; eexists; reflexivity|].
  apply ok_bind; [apply loc_dirs, Hn|]. kk.
Qed.
Lemma loc_inputs pre : ok pre (parse_inputs fok n) (parse_inputs fok n').
Proof. unfold parse_inputs. pose proof loc_ivdef. kk. Qed.
Lemma loc_implements pre : ok pre (parse_implements n) (parse_implements n').
Proof. unfold parse_implements. kk. Qed.
Lemma loc_members pre : ok pre (parse_members n) (parse_members n').
Proof. unfold parse_members. kk. Qed.
Lemma loc_typebody pre d : ok pre (parse_typebody fok n d) (parse_typebody fok n' d).
Proof.
  pose proof loc_implements. pose proof loc_members. pose proof loc_inputs. pose proof loc_enumvals. pose proof loc_fielddefs.
  unfold parse_typebody. apply ok_bind; [kk|]. intros kt. destruct (kind_of_kw (tlit kt)) as [k|]; [|kk]. destruct k; kk.
Qed.
Lemma loc_optypedefs pre : ok pre (parse_optypedefs n) (parse_optypedefs n').
Proof. pose proof loc_optype. unfold parse_optypedefs. kk. unfold parse_optypedef. kk. Qed.
Lemma loc_schemadef pre : ok pre (parse_schemadef fok n) (parse_schemadef fok n').
Proof. pose proof loc_optypedefs. unfold parse_schemadef. kk. Qed.
Lemma loc_schemaext pre : ok pre (parse_schemaext fok n) (parse_schemaext fok n').
Proof.
  pose proof loc_optypedefs. unfold parse_schemaext. kk.
  match goal with |- ok _ (match ?x with _ => _ end) _ => destruct x end; [match goal with |- ok _ (match ?x with _ => _ end) _ => destruct x end|]; kk.
Qed.
Lemma loc_dirloc pre : ok pre parse_dirloc parse_dirloc.
Proof.
  apply ok_nil. intros ts Hts. unfold parse_dirloc. pose proof (ok_must [] (isn KName location_names) (expected KName location_names) ts Hts) as H.
  unfold mustn. destruct (must _ _ ts) as [t s|e s|[]] eqn:Em; try exact I.
  - destruct H as (p & E & Hs & H). exists p. split; [exact E|]. split; [exact Hs|]. intros q q1 Eq E1. rewrite (H q q1 Eq E1). reflexivity.
  - destruct H as (p & E & Hs & _ & H). pose proof (ok_perr (A := dirloc) [expected KName location_names] s Hs) as H2.
    destruct (perr [expected KName location_names] s) as [a s2|e2 s2|[]] eqn:Ep; try exact I.
    + exfalso. destruct s; discriminate.
    + destruct H2 as (p2 & E2 & Hs2 & Hb & H2). exists (p ++ p2). split; [rewrite <- app_assoc; congruence|]. split; [exact Hs2|]. split; [apply (blame_weaken _ p p2), Hb|].
      intros q q1 Eq E1. subst s2. rewrite app_assoc in E2. rewrite (H q (p2 ++ q1) Eq E2). apply (H2 _ q1 E2 eq_refl).
    + exfalso. destruct s; discriminate.
  - intros q Eq Er Er'. try rewrite Em. reflexivity.
Qed.
Lemma loc_dirlocs pre : ok pre (parse_dirlocs n) (parse_dirlocs n').
Proof. unfold parse_dirlocs. pose proof loc_dirloc. kk. Qed.
Lemma loc_dirdef pre d : ok pre (parse_dirdef fok n d) (parse_dirdef fok n' d).
Proof. pose proof loc_argdefs. pose proof loc_dirlocs. unfold parse_dirdef. kk. Qed.
Lemma loc_tsdef pre d : ok pre (parse_tsdef fok n d) (parse_tsdef fok n' d).
Proof. pose proof loc_schemadef. unfold parse_tsdef. pose proof loc_dirdef. pose proof loc_typebody. kk. Qed.
Lemma loc_tsext pre : ok pre (parse_tsext fok n) (parse_tsext fok n').
Proof. pose proof loc_schemaext. unfold parse_tsext. pose proof loc_typebody. kk. Qed.
Lemma loc_body pre : ok pre (parse_body fok n) (parse_body fok n').
Proof.
  pose proof loc_fragment. pose proof loc_tsext. pose proof loc_desc. unfold parse_body. apply ok_bind; [kk|]. intros t. cbv zeta. pose proof loc_operation. pose proof loc_tsdef. kk.
Qed.
Lemma loc_definition pre : ok pre (parse_definition fok n) (parse_definition fok n').
Proof. pose proof loc_body. unfold parse_definition. kk. Qed.
Lemma loc_parse_loop m : forall m' pre c, m <= m' -> ok pre (parse_loop fok n m c) (parse_loop fok n' m' c).
Proof.
  pose proof loc_definition. induction m as [|m IH]; intros m' pre c Hm; [apply ok_fuel|]. destruct m' as [|m']; [lia|]. cbn [parse_loop].
  apply ok_bind; [kk|]. intros [d|]; [|kk]. cbv zeta. assert (Hm1 : m <= m') by lia. kk. apply IH, Hm1.
Qed.
End Fuel2.
End Local.
