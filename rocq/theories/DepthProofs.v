(** * DepthProofs: the recursion of ParserDepth.v needs no more room than the brackets are nested, and no less than the result is. *)
From Verif Require Import Base Utf8 Lexer AST Parser ParserWp ParserDepth DepthSpec.
Local Open Scope p_scope.

(** The brackets at which the recursive functions recurse. *)
Definition opens (t : token) : bool := is1 KPunct (B "{") t || is1 KPunct (B "[") t.
Definition closes (t : token) : bool := is1 KPunct (B "}") t || is1 KPunct (B "]") t.
Fixpoint height (ts : list token) : nat :=
  match ts with
  | [] => 0
  | t :: r => if opens t then S (height r) else if closes t then pred (height r) else height r
  end.

(** ** Enough room. *)
Definition sim {A} (e e' : nat) (m m' : P A) : Prop := forall ts, height ts <= e ->
  match m ts with
  | POk a r => m' ts = POk a r /\ height r <= e'
  | PErr x r => m' ts = PErr x r
  | PCrash OutOfFuel => True
  | PCrash c => m' ts = PCrash c
  end.

Lemma sim_ret {A} e (a : A) : sim e e (pret a) (pret a).
Proof. intros ts H. split; [reflexivity|exact H]. Qed.
Lemma sim_fail {A} e e' x : sim (A := A) e e' (pfail x) (pfail x).
Proof. intros ts H. reflexivity. Qed.
Lemma sim_crash {A} e e' c : sim (A := A) e e' (pcrash c) (pcrash c).
Proof. intros ts H. destruct c; cbn; auto. Qed.
Lemma sim_fuel {A} e e' (m' : P A) : sim e e' (pcrash OutOfFuel) m'.
Proof. intros ts H. exact I. Qed.
Lemma sim_bind {A C} e e1 e2 (m m' : P A) (k k' : A -> P C) : sim e e1 m m' -> (forall a, sim e1 e2 (k a) (k' a)) -> sim e e2 (pbind m k) (pbind m' k').
Proof.
  intros Hm Hk ts H. unfold pbind. specialize (Hm ts H). destruct (m ts) as [a r|x r|[]]; try exact I; [|rewrite Hm; reflexivity..].
  destruct Hm as [-> Hr]. exact (Hk a r Hr).
Qed.
Lemma sim_tok e : sim e e tok tok.
Proof. intros [|t ts] H; [reflexivity|]. split; [reflexivity|exact H]. Qed.
Lemma sim_if {A} e e' (b : bool) (p q p' q' : P A) : sim e e' p p' -> sim e e' q q' -> sim e e' (if b then p else q) (if b then p' else q').
Proof. destruct b; auto. Qed.
Lemma sim_peek e p : sim e e (peek p) (peek p).
Proof. apply (sim_bind e e); [apply sim_tok|]. intros t. apply sim_ret. Qed.
Lemma sim_perr {A} e e' ws : sim (A := A) e e' (perr ws) (perr ws).
Proof. intros [|t ts] H; reflexivity. Qed.
Lemma sim_up {A} e e1 e2 (m m' : P A) : e1 <= e2 -> sim e e1 m m' -> sim e e2 m m'.
Proof. intros L Hm ts H. specialize (Hm ts H). destruct (m ts) as [a r|x r|[]]; try exact Hm. split; [apply Hm|destruct Hm; lia]. Qed.
Lemma sim_down {A} e e1 e2 (m m' : P A) : e1 <= e -> sim e e2 m m' -> sim e1 e2 m m'.
Proof. intros L Hm ts H. apply Hm. lia. Qed.

(** Reading one token. *)
Definition plain_p (p : token -> bool) : Prop := forall t, p t = true -> closes t = false.
Lemma height_tail p t r : plain_p p -> p t = true -> height r <= height (t :: r).
Proof. intros Hp Ht. cbn [height]. rewrite (Hp t Ht). destruct (opens t); lia. Qed.
Lemma height_any t r : height r <= S (height (t :: r)).
Proof. cbn [height]. destruct (opens t), (closes t); lia. Qed.
Lemma sim_skip e p : plain_p p -> sim e e (skip p) (skip p).
Proof.
  intros Hp [|t [|u ts]] H; try reflexivity; unfold skip, pbind; cbn [tok]; destruct (p t) eqn:E; cbn -[height]; try reflexivity; try (split; [reflexivity|]).
  - exact H.
  - pose proof (height_tail p t (u :: ts) Hp E). lia.
  - exact H.
Qed.
Lemma sim_consume e p : plain_p p -> sim e e (consume p) (consume p).
Proof.
  intros Hp [|t [|u ts]] H; try reflexivity; unfold consume, pbind; cbn [tok]; destruct (p t) eqn:E; cbn -[height]; try reflexivity; try (split; [reflexivity|]).
  - exact H.
  - pose proof (height_tail p t (u :: ts) Hp E). lia.
  - exact H.
Qed.
Lemma sim_must e p w : plain_p p -> sim e e (must p w) (must p w).
Proof.
  intros Hp [|t [|u ts]] H; try reflexivity; unfold must, pbind; cbn [tok]; destruct (p t) eqn:E; cbn -[height]; try reflexivity.
  split; [reflexivity|]. pose proof (height_tail p t (u :: ts) Hp E). lia.
Qed.
(** Reading any token, possibly a closing bracket. *)
Lemma sim_must_close e p w : sim e (S e) (must p w) (must p w).
Proof.
  intros [|t [|u ts]] H; try reflexivity; unfold must, pbind; cbn [tok]; destruct (p t) eqn:E; cbn -[height]; try reflexivity.
  split; [reflexivity|]. pose proof (height_any t (u :: ts)). lia.
Qed.
Lemma sim_close {A} e e' p (k k' : bool -> P A) : sim (S e) e' (k true) (k' true) -> sim e e' (k false) (k' false) -> sim e e' (pbind (skip p) k) (pbind (skip p) k').
Proof.
  intros H1 H2 [|t [|u ts]] H; try reflexivity; unfold skip, pbind; cbn [tok]; destruct (p t) eqn:E; cbn -[height]; try reflexivity.
  - apply H2, H.
  - apply H1. pose proof (height_any t (u :: ts)). lia.
  - apply H2, H.
Qed.
(** Reading an opening bracket. *)
Lemma sim_open {A} e e' p (k k' : bool -> P A) : (forall t, p t = true -> opens t = true) -> (forall e0, e = S e0 -> sim e0 e' (k true) (k' true)) -> sim e e' (k false) (k' false) ->
  sim e e' (pbind (skip p) k) (pbind (skip p) k').
Proof.
  intros Hp H1 H2 [|t [|u ts]] H; try reflexivity; unfold skip, pbind; cbn [tok]; destruct (p t) eqn:E; cbn -[height]; try reflexivity.
  - apply H2, H.
  - cbn [height] in H. rewrite (Hp t E) in H. destruct e as [|e]; [lia|]. apply (H1 e eq_refl). apply le_S_n, H.
  - apply H2, H.
Qed.
Lemma sim_not e m m' : sim e e m m' -> sim e e (pnot m) (pnot m').
Proof. intros H. apply (sim_bind e e); [exact H|]. intros b. apply sim_ret. Qed.
Lemma sim_loop {A} e close close' (body body' : P A) : sim e e close close' -> sim e e body body' -> forall n n', n <= n' ->
  sim e e (loop_until n close body) (loop_until n' close' body').
Proof.
  intros Hc Hb. induction n as [|n IH]; intros n' Hn; [apply sim_fuel|]. destruct n' as [|n']; [lia|]. cbn [loop_until].
  apply (sim_bind e e); [exact Hc|]. intros c. apply sim_if; [apply sim_ret|]. apply (sim_bind e e); [exact Hb|]. intros a. apply (sim_bind e e); [apply IH; lia|]. intros l. apply sim_ret.
Qed.
Lemma sim_loop_close {A} e p (body body' : P A) : sim e e body body' -> forall n n', n <= n' ->
  sim e (S e) (loop_until n (skip p) body) (loop_until n' (skip p) body').
Proof.
  intros Hb. induction n as [|n IH]; intros n' Hn; [apply sim_fuel|]. destruct n' as [|n']; [lia|]. cbn [loop_until].
  apply sim_close; [apply sim_ret|]. apply (sim_bind e e); [exact Hb|]. intros a. apply (sim_bind e (S e)); [apply IH; lia|]. intros l. apply sim_ret.
Qed.
Lemma sim_do {A} e fin fin' (body body' : P A) : sim e e body body' -> sim e e fin fin' -> forall n n', n <= n' ->
  sim e e (do_loop n body fin) (do_loop n' body' fin').
Proof.
  intros Hb Hc. induction n as [|n IH]; intros n' Hn; [apply sim_fuel|]. destruct n' as [|n']; [lia|]. cbn [do_loop].
  apply (sim_bind e e); [exact Hb|]. intros a. apply (sim_bind e e); [exact Hc|]. intros c. apply sim_if; [apply sim_ret|]. apply (sim_bind e e); [apply IH; lia|]. intros l. apply sim_ret.
Qed.
Lemma sim_do_close {A} e p (body body' : P A) : sim e e body body' -> forall n n', n <= n' ->
  sim e (S e) (do_loop n body (skip p)) (do_loop n' body' (skip p)).
Proof.
  intros Hb. induction n as [|n IH]; intros n' Hn; [apply sim_fuel|]. destruct n' as [|n']; [lia|]. cbn [do_loop].
  apply (sim_bind e e); [exact Hb|]. intros a. apply sim_close; [apply sim_ret|]. apply (sim_bind e (S e)); [apply IH; lia|]. intros l. apply sim_ret.
Qed.

Lemma plain_is0 k : k <> KPunct -> plain_p (is0 k).
Proof. intros Hk t H. apply kind_eqb_true in H. unfold closes, is1. destruct (kind_eqb (tkind t) KPunct) eqn:E; [apply kind_eqb_true in E; congruence|reflexivity]. Qed.
Lemma plain_is1 k l : ~ (k = KPunct /\ (l = B "}" \/ l = B "]")) -> plain_p (is1 k l).
Proof.
  intros Hk t H. unfold is1 in H. apply andb_prop in H. destruct H as [H1 H2]. apply kind_eqb_true in H1. apply beqb_true in H2. unfold closes, is1.
  destruct (kind_eqb (tkind t) KPunct) eqn:E; [|reflexivity]. apply kind_eqb_true in E. cbn [andb].
  destruct (beqb_spec (tlit t) (B "}")) as [E1|E1]; [exfalso; apply Hk; split; [congruence|left; congruence]|].
  destruct (beqb_spec (tlit t) (B "]")) as [E2|E2]; [exfalso; apply Hk; split; [congruence|right; congruence]|reflexivity].
Qed.
Lemma plain_isn k ls : k <> KPunct -> plain_p (isn k ls).
Proof. intros Hk t H. unfold isn in H. apply andb_prop in H. apply (plain_is0 k Hk). apply H. Qed.
Ltac plain := first [apply plain_is0; discriminate | apply plain_isn; discriminate | apply plain_is1; intros [? [?|?]]; discriminate].
Lemma opens_1 l : B l = B "{" \/ B l = B "[" -> forall t, is1 KPunct (B l) t = true -> opens t = true.
Proof. intros [->| ->] t H; unfold opens; rewrite H; [reflexivity|apply orb_true_r]. Qed.

Lemma need_bind {A} k l (f : unit -> P A) ts : pbind (need k l) f ts = (b <- skip1 k l ;; if b then f tt else perr [want k l]) ts.
Proof. unfold need, pbind at 1 2 3. destruct (skip1 k l ts) as [[] r|x r|c]; try reflexivity. destruct r; reflexivity. Qed.
Lemma sim_need e k l : ~ (k = KPunct /\ (B l = B "}" \/ B l = B "]")) -> sim e e (need k l) (need k l).
Proof. intros H. apply (sim_bind e e); [apply sim_skip, plain_is1, H|]. intros b. apply sim_if; [apply sim_ret|apply sim_perr]. Qed.
Lemma sim_at_close e c : sim e e (at_close c) (at_close c).
Proof. apply (sim_bind e e); [apply sim_peek|]. intros b. apply sim_if; [apply sim_ret|apply sim_peek]. Qed.
Lemma sim_named_only e t : sim e e (named_only t) (named_only t).
Proof. destruct t; cbn; [apply sim_ret|apply sim_perr..]. Qed.
Lemma sim_dirloc e : sim e e parse_dirloc parse_dirloc.
Proof.
  intros ts H. unfold parse_dirloc, mustn. pose proof (sim_must e (isn KName location_names) (expected KName location_names) ltac:(plain) ts H) as S.
  destruct (must _ _ ts) as [t r|x r|[]]; try exact I; try reflexivity; [split; [reflexivity|apply S]|]. destruct r; reflexivity.
Qed.

Ltac sstep := match goal with
  | |- sim _ _ (pbind (skip1 KPunct "{") _) _ => apply sim_open; [apply opens_1; auto|intros ? ->|]
  | |- sim _ _ (pbind (skip1 KPunct "[") _) _ => apply sim_open; [apply opens_1; auto|intros ? ->|]
  | |- sim _ _ (pret _) _ => apply sim_ret
  | |- sim _ _ (pcrash OutOfFuel) _ => apply sim_fuel
  | |- sim _ _ (pcrash _) _ => apply sim_crash
  | |- sim _ _ (pfail _) _ => apply sim_fail
  | |- sim _ _ (perr _) _ => apply sim_perr
  | |- sim _ _ tok _ => apply sim_tok
  | |- sim _ _ (peek1 _ _) _ => apply sim_peek
  | |- sim _ _ (peek0 _) _ => apply sim_peek
  | |- sim _ _ (peekn _ _) _ => apply sim_peek
  | |- sim _ _ (peek _) _ => apply sim_peek
  | |- sim _ _ (skip1 _ _) _ => apply sim_skip; plain
  | |- sim _ _ (must0 _) _ => apply sim_must; plain
  | |- sim _ _ (must1 KPunct "}") _ => apply sim_must_close
  | |- sim _ _ (must1 KPunct "]") _ => apply sim_must_close
  | |- sim _ _ (must1 _ _) _ => apply sim_must; plain
  | |- sim _ _ (mustn _ _) _ => apply sim_must; plain
  | |- sim _ _ (consume0 _) _ => apply sim_consume; plain
  | |- sim _ _ (consume _) _ => apply sim_consume; plain
  | |- sim _ _ (need _ _) _ => apply sim_need; intros [? [?|?]]; discriminate
  | |- sim _ _ (pnot _) _ => apply sim_not
  | |- sim _ _ (at_close _) _ => apply sim_at_close
  | |- sim _ _ (named_only _) _ => apply sim_named_only
  | |- sim _ _ parse_dirloc _ => apply sim_dirloc
  | |- sim _ _ (loop_until _ (skip1 KPunct "}") _) _ => apply sim_loop_close; [|lia]
  | |- sim _ _ (loop_until _ (skip1 KPunct "]") _) _ => apply sim_loop_close; [|lia]
  | |- sim _ _ (loop_until _ _ _) _ => apply sim_loop; [| |lia]
  | |- sim _ _ (do_loop _ _ (skip1 KPunct "}")) _ => apply sim_do_close; [|lia]
  | |- sim _ _ (do_loop _ _ _) _ => apply sim_do; [| |lia]
  | |- sim _ _ (if ?b then _ else _) _ => apply sim_if
  | |- sim _ _ (pbind _ _) _ => eapply sim_bind; [|intros ?]
  | |- sim _ _ (match ?o with Some _ => _ | None => _ end) _ => destruct o
  end.
Ltac ss := repeat sstep.

Section Enough.
Variable fok : bytes -> bool.

(** [parseType] leaves no more open brackets ahead than it found, also when it fails (an error inside a list is swallowed). *)
Definition keeps {A} (m : P A) : Prop := forall ts, match m ts with POk _ r | PErr _ r => height r <= height ts | PCrash _ => True end.
Lemma keeps_bind {A C} (m : P A) (k : A -> P C) : keeps m -> (forall a, keeps (k a)) -> keeps (pbind m k).
Proof. intros Hm Hk ts. unfold pbind. specialize (Hm ts). destruct (m ts) as [a r|x r|c]; [|exact Hm|exact I]. specialize (Hk a r). destruct (k a r); [lia|lia|exact I]. Qed.
Lemma keeps_ret {A} (a : A) : keeps (pret a).
Proof. intros ts. cbn. lia. Qed.
Lemma keeps_skip p : plain_p p -> keeps (skip p).
Proof. intros Hp ts. pose proof (sim_skip (height ts) p Hp ts (le_n _)) as H. unfold skip, pbind in *. destruct ts as [|t [|u ts]]; [exact I|cbn -[height]; destruct (p t); cbn -[height]; auto|]. cbn -[height] in *. destruct (p t); cbn -[height] in *; [apply H|auto]. Qed.
Lemma keeps_must p w : plain_p p -> keeps (must p w).
Proof. intros Hp ts. pose proof (sim_must (height ts) p w Hp ts (le_n _)) as H. unfold must, pbind in *. destruct ts as [|t [|u ts]]; [exact I|cbn -[height]; destruct (p t); cbn -[height]; auto|]. cbn -[height] in *. destruct (p t); cbn -[height] in *; [apply H|auto]. Qed.
Lemma must_err p w s y r : must p w s = PErr y r -> r = s.
Proof.
  unfold must, pbind. destruct s as [|t s]; [discriminate|]. cbn [tok]. destruct (p t); [destruct s; discriminate|]. unfold pfail. congruence.
Qed.
Lemma skip_cons p t ts : skip p (t :: ts) = if p t then match ts with [] => PCrash Over | _ => POk true ts end else POk false (t :: ts).
Proof. unfold skip, pbind. cbn [tok]. destruct (p t); [destruct ts|]; reflexivity. Qed.
Lemma keeps_at {A} (m : P A) ts h : keeps m -> height ts <= h -> match m ts with POk _ r | PErr _ r => height r <= h | PCrash _ => True end.
Proof. intros K L. specialize (K ts). destruct (m ts); [lia|lia|exact I]. Qed.
Lemma keeps_type n : keeps (parse_type n).
Proof.
  induction n as [|n IH]; [intros ts; exact I|]. cbn [parse_type]. intros ts. unfold pbind at 1. destruct ts as [|t ts]; [exact I|].
  unfold skip1 at 1. rewrite skip_cons. destruct (is1 KPunct (B "[") t) eqn:E.
  - destruct ts as [|u ts]; [exact I|].
    assert (Hh : height (t :: u :: ts) = S (height (u :: ts))) by (cbn [height]; rewrite (opens_1 "[" (or_intror eq_refl) t E); reflexivity).
    rewrite Hh. specialize (IH (u :: ts)). destruct (parse_type n (u :: ts)) as [it s|y s|c]; [|lia|exact I].
    unfold pbind at 1. pose proof (sim_must_close (height s) (is1 KPunct (B "]")) (expected KPunct [B "]"]) s (le_n _)) as Hm. unfold must1.
    destruct (must _ _ s) as [a r|y r|c] eqn:Em; [|apply must_err in Em; subst; lia|exact I]. destruct Hm as [_ Hm].
    apply keeps_at; [|lia]. apply keeps_bind; [apply keeps_skip; plain|intros; apply keeps_ret].
  - apply keeps_at; [|lia]. apply keeps_bind; [apply keeps_must; plain|intros; apply keeps_bind; [apply keeps_skip; plain|intros; apply keeps_ret]].
Qed.
Lemma sim_type N n : forall k e, e < k -> sim e e (parse_type n) (parse_type_d N k).
Proof.
  induction n as [|n IH]; intros k e Hk; [apply sim_fuel|]. destruct k as [|k]; [lia|]. cbn [parse_type parse_type_d]. sstep; [|ss].
  cbv beta iota. intros ts Hts. specialize (IH k e0 ltac:(lia) ts Hts). pose proof (keeps_type n ts) as K. destruct (parse_type n ts) as [it r|x r|[]]; try exact I.
  - destruct IH as [-> Hr]. assert (S : sim e0 (S e0) (must1 KPunct "]" ;;; nn <- skip1 KPunct "!" ;; pret (TList it nn)) (must1 KPunct "]" ;;; nn <- skip1 KPunct "!" ;; pret (TList it nn))) by ss.
    exact (S r Hr).
  - rewrite IH. split; [reflexivity|lia].
  - rewrite IH. reflexivity.
  - rewrite IH. reflexivity.
Qed.
Lemma sim_value N n : n <= N -> forall k e, e < k -> sim e e (parse_value fok n) (parse_value_d fok N k).
Proof.
  induction n as [|n IH]; intros HN k e Hk; [apply sim_fuel|]. destruct k as [|k]; [lia|]. cbn [parse_value parse_value_d].
  ss; try (apply IH; lia). unfold parse_object_field. ss. apply IH; lia.
Qed.
Section Fuel.
Variables n N k : nat.
Hypothesis HN : n <= N.
Lemma sim_default e : e < k -> sim e e (parse_default fok n) (parse_default_d fok N k).
Proof. intros He. unfold parse_default, parse_default_d. ss. apply sim_value; assumption. Qed.
Lemma sim_args e : e < k -> sim e e (parse_arguments fok n) (parse_arguments_d fok N k).
Proof. intros He. unfold parse_arguments, parse_arguments_d. ss. unfold parse_argument, parse_argument_d. ss. apply sim_value; assumption. Qed.
Lemma sim_dirs e l : e < k -> sim e e (parse_directives fok n l) (parse_directives_d fok N k l).
Proof. intros He. unfold parse_directives, parse_directives_d. ss. unfold parse_directive, parse_directive_d. ss. apply sim_args; assumption. Qed.
Lemma sim_cond e : e < k -> sim e e (parse_type_condition n) (parse_type_condition_d N k).
Proof. intros He. unfold parse_type_condition, parse_type_condition_d. ss. apply sim_type, He. Qed.
End Fuel.
Lemma sim_selset N n : n <= N -> forall k e o, e < k -> sim e e (parse_selset fok n o) (parse_selset_d fok N k o).
Proof.
  induction n as [|n IH]; intros HN k e o Hk; [apply sim_fuel|]. destruct k as [|k]; [lia|]. cbn [parse_selset parse_selset_d]. assert (HN1 : n <= N) by lia.
  sstep; [assert (He : e0 < k) by lia|]; repeat (first [apply sim_dirs; assumption | apply sim_args; assumption | apply sim_cond; assumption | apply IH; assumption | sstep | progress unfold parse_selection, parse_selection_d, parse_spread, parse_spread_d, parse_inline, parse_inline_d, parse_field, parse_field_d]).
Qed.
Section Fuel2.
Variables n N k : nat.
Hypothesis HN : n <= N.
Ltac st := first [sstep | apply sim_type; lia | apply sim_dirs; [exact HN|lia] | apply sim_default; [exact HN|lia] | apply sim_selset; [exact HN|lia] | apply sim_cond; lia].
Lemma sim_vardefs e : e < k -> sim e e (parse_vardefs fok n) (parse_vardefs_d fok N k).
Proof. intros He. unfold parse_vardefs, parse_vardefs_d. ss. unfold parse_vardef, parse_vardef_d. repeat st. Qed.
Lemma sim_optype e : sim e e parse_optype parse_optype.
Proof. unfold parse_optype. ss. Qed.
Lemma sim_operation e b : e < k -> sim e e (parse_operation fok n b) (parse_operation_d fok N k b).
Proof. intros He. unfold parse_operation, parse_operation_d. repeat (first [apply sim_optype | apply sim_vardefs; lia | st]). Qed.
Lemma sim_fragment e : e < k -> sim e e (parse_fragment fok n) (parse_fragment_d fok N k).
Proof. intros He. unfold parse_fragment, parse_fragment_d. repeat st. Qed.
Lemma sim_desc e : sim e e parse_desc parse_desc.
Proof. unfold parse_desc. ss. Qed.
Lemma sim_ivdef e l : e < k -> sim e e (parse_ivdef fok n l) (parse_ivdef_d fok N k l).
Proof. intros He. unfold parse_ivdef, parse_ivdef_d. repeat (first [apply sim_desc | st]). Qed.
Lemma sim_argdefs e : e < k -> sim e e (parse_argdefs fok n) (parse_argdefs_d fok N k).
Proof. intros He. unfold parse_argdefs, parse_argdefs_d. repeat (first [apply sim_ivdef; lia | st]). Qed.
Lemma sim_fielddefs e : e < k -> sim e e (parse_fielddefs fok n) (parse_fielddefs_d fok N k).
Proof. intros He. unfold parse_fielddefs, parse_fielddefs_d. ss. unfold parse_fielddef, parse_fielddef_d. repeat (first [apply sim_desc | apply sim_argdefs; lia | st]). Qed.
Lemma sim_enumvals e : e < k -> sim e e (parse_enumvals fok n) (parse_enumvals_d fok N k).
Proof. intros He. unfold parse_enumvals, parse_enumvals_d. ss. unfold parse_enumval, parse_enumval_d. repeat (first [apply sim_desc | st]). Qed.
Lemma sim_inputs e : e < k -> sim e e (parse_inputs fok n) (parse_inputs_d fok N k).
Proof. intros He. unfold parse_inputs, parse_inputs_d. ss. apply sim_ivdef; lia. Qed.
Lemma sim_implements e : e < k -> sim e e (parse_implements n) (parse_implements_d N k).
Proof. intros He. unfold parse_implements, parse_implements_d. repeat st. Qed.
Lemma sim_members e : e < k -> sim e e (parse_members n) (parse_members_d N k).
Proof. intros He. unfold parse_members, parse_members_d. repeat st. Qed.
Lemma sim_typebody e d : e < k -> sim e e (parse_typebody fok n d) (parse_typebody_d fok N k d).
Proof.
  intros He. unfold parse_typebody, parse_typebody_d. sstep; [ss|]. destruct (kind_of_kw _) as [q|]; [|ss].
  destruct q; repeat (first [apply sim_implements; lia | apply sim_members; lia | apply sim_inputs; lia | apply sim_enumvals; lia | apply sim_fielddefs; lia | st]).
Qed.
Lemma sim_optypedefs e : e < k -> sim e e (parse_optypedefs n) (parse_optypedefs_d N k).
Proof.
  intros He. unfold parse_optypedefs, parse_optypedefs_d. intros ts Hts. rewrite !need_bind. revert ts Hts.
  match goal with |- forall ts, _ -> match ?m ts with _ => _ end => change (sim e e m (b <- skip1 KPunct "{" ;; if b then (l <- do_loop N (parse_optypedef_d N k) (at_close "}") ;; must1 KPunct "}" ;;; pret l) else perr [want KPunct "{"])) end.
  ss. unfold parse_optypedef, parse_optypedef_d. repeat (first [apply sim_optype | st]).
Qed.
Lemma sim_schemadef e : e < k -> sim e e (parse_schemadef fok n) (parse_schemadef_d fok N k).
Proof. intros He. unfold parse_schemadef, parse_schemadef_d. repeat (first [apply sim_optypedefs; lia | st]). Qed.
Lemma sim_schemaext e : e < k -> sim e e (parse_schemaext fok n) (parse_schemaext_d fok N k).
Proof.
  intros He. unfold parse_schemaext, parse_schemaext_d. repeat (first [apply sim_optypedefs; lia | st]).
  repeat match goal with |- sim _ _ (match ?x with _ => _ end) _ => destruct x end; ss.
Qed.
Lemma sim_dirdef e d : e < k -> sim e e (parse_dirdef fok n d) (parse_dirdef_d fok N k d).
Proof. intros He. unfold parse_dirdef, parse_dirdef_d. repeat (first [apply sim_argdefs; lia | st]). unfold parse_dirlocs, parse_dirlocs_d. ss. Qed.
Lemma sim_body e : e < k -> sim e e (parse_body fok n) (parse_body_d fok N k).
Proof.
  intros He. unfold parse_body, parse_body_d. sstep; [ss|]. cbv zeta.
  repeat (first [apply sim_fragment; lia | apply sim_operation; lia | apply sim_desc | apply sim_schemadef; lia | apply sim_schemaext; lia | apply sim_dirdef; lia | apply sim_typebody; lia | st
     | progress unfold parse_tsext, parse_tsext_d, parse_tsdef, parse_tsdef_d]).
Qed.
Lemma sim_parse_loop e m : e < k -> forall m' c, m <= m' -> sim e e (parse_loop fok n m c) (parse_loop_d fok N k m' c).
Proof.
  intros He. induction m as [|m IH]; intros m' c Hm; [apply sim_fuel|]. destruct m' as [|m']; [lia|]. cbn [parse_loop parse_loop_d].
  eapply sim_bind; [unfold parse_definition, parse_definition_d; eapply sim_bind; [ss|]; intros t; eapply sim_bind; [apply sim_body, He|]; intros; apply sim_ret|].
  intros [d|]; [|ss]. cbv zeta. ss. apply IH. lia.
Qed.
End Fuel2.
End Enough.

(** ** No less room than the result is deep, and then the result is that of the parser. *)
Definition fit {A} (Q : A -> Prop) (m' m : P A) : Prop := forall ts,
  match m' ts with
  | POk a r => m ts = POk a r /\ Q a
  | PErr x r => m ts = PErr x r
  | PCrash OutOfFuel => True
  | PCrash c => m ts = PCrash c
  end.
Definition any {A} (a : A) : Prop := True.
Lemma fit_ret {A} (Q : A -> Prop) a : Q a -> fit Q (pret a) (pret a).
Proof. intros H ts. split; [reflexivity|exact H]. Qed.
Lemma fit_fail {A} (Q : A -> Prop) x : fit Q (pfail x) (pfail x).
Proof. intros ts. reflexivity. Qed.
Lemma fit_crash {A} (Q : A -> Prop) c : fit Q (pcrash c) (pcrash c).
Proof. intros ts. destruct c; cbn; auto. Qed.
Lemma fit_fuel {A} (Q : A -> Prop) m : fit Q (pcrash OutOfFuel) m.
Proof. intros ts. exact I. Qed.
Lemma fit_bind {A C} (Q1 : A -> Prop) (Q : C -> Prop) (m' m : P A) (k' k : A -> P C) : fit Q1 m' m -> (forall a, Q1 a -> fit Q (k' a) (k a)) -> fit Q (pbind m' k') (pbind m k).
Proof.
  intros Hm Hk ts. unfold pbind. specialize (Hm ts). destruct (m' ts) as [a r|x r|[]]; try exact I; [|rewrite Hm; reflexivity..].
  destruct Hm as [-> Ha]. exact (Hk a Ha r).
Qed.
Lemma fit_same {A} (m : P A) : fit any m m.
Proof. intros ts. destruct (m ts) as [a r|x r|[]]; cbn; auto. split; [reflexivity|exact I]. Qed.
Lemma fit_if {A} (Q : A -> Prop) (b : bool) (p q p' q' : P A) : fit Q p' p -> fit Q q' q -> fit Q (if b then p' else q') (if b then p else q).
Proof. destruct b; auto. Qed.
Lemma fit_perr {A} (Q : A -> Prop) ws : fit Q (perr ws) (perr ws).
Proof. intros [|t ts]; reflexivity. Qed.
Lemma fit_weaken {A} (Q Q' : A -> Prop) m' m : (forall a, Q a -> Q' a) -> fit Q m' m -> fit Q' m' m.
Proof. intros H Hm ts. specialize (Hm ts). destruct (m' ts) as [a r|x r|[]]; try exact Hm. split; [apply Hm|apply H, Hm]. Qed.
Lemma fit_loop {A} (Q : A -> Prop) close (body' body : P A) : fit Q body' body -> forall n' n, n' <= n -> fit (Forall Q) (loop_until n' close body') (loop_until n close body).
Proof.
  intros Hb. induction n' as [|n' IH]; intros n Hn; [apply fit_fuel|]. destruct n as [|n]; [lia|]. cbn [loop_until].
  eapply fit_bind; [apply fit_same|]. intros c _. apply fit_if; [apply fit_ret; constructor|]. eapply fit_bind; [exact Hb|]. intros a Ha. eapply fit_bind; [apply IH; lia|]. intros l Hl. apply fit_ret. constructor; assumption.
Qed.
Lemma fit_do {A} (Q : A -> Prop) fin (body' body : P A) : fit Q body' body -> forall n' n, n' <= n -> fit (Forall Q) (do_loop n' body' fin) (do_loop n body fin).
Proof.
  intros Hb. induction n' as [|n' IH]; intros n Hn; [apply fit_fuel|]. destruct n as [|n]; [lia|]. cbn [do_loop].
  eapply fit_bind; [exact Hb|]. intros a Ha. eapply fit_bind; [apply fit_same|]. intros c _. apply fit_if; [apply fit_ret; auto|]. eapply fit_bind; [apply IH; lia|]. intros l Hl. apply fit_ret. auto.
Qed.

Ltac fstep := match goal with
  | |- fit _ (pret _) _ => apply fit_ret
  | |- fit _ (pcrash OutOfFuel) _ => apply fit_fuel
  | |- fit _ (pcrash _) _ => apply fit_crash
  | |- fit _ (pfail _) _ => apply fit_fail
  | |- fit _ (perr _) _ => apply fit_perr
  | |- fit _ ?m ?m => apply fit_same
  | |- fit _ (loop_until _ _ _) _ => eapply fit_loop; [|lia]
  | |- fit _ (do_loop _ _ _) _ => eapply fit_do; [|lia]
  | |- fit _ (pbind (if _ then _ else _) _) _ => fail 1
  | |- fit _ (pbind (match _ with _ => _ end) _) _ => fail 1
  | |- fit _ (if ?b then _ else _) _ => apply fit_if
  | |- fit _ (pbind _ _) _ => eapply fit_bind; [|intros ? ?]
  | |- fit _ (match ?o with Some _ => _ | None => _ end) _ => destruct o
  end.
Ltac ff := repeat fstep.

Section Result.
Variable fok : bytes -> bool.
Lemma fit_type N k : forall n, k <= n -> fit (ty_fits k) (parse_type_d N k) (parse_type n).
Proof.
  induction k as [|k IH]; intros n Hn; [apply fit_fuel|]. destruct n as [|n]; [lia|]. cbn [parse_type parse_type_d].
  eapply fit_bind; [apply fit_same|]. intros b _. destruct b; [|ff; exact I].
  intros ts. specialize (IH n ltac:(lia) ts). destruct k as [|k]; [exact I|]. destruct (parse_type_d N (S k) ts) as [it r|x r|[]]; try exact I.
  - destruct IH as [-> Hit]. assert (F : fit (ty_fits (S (S k))) (must1 KPunct "]" ;;; nn <- skip1 KPunct "!" ;; pret (TList it nn)) (must1 KPunct "]" ;;; nn <- skip1 KPunct "!" ;; pret (TList it nn))) by (eapply fit_bind; [apply fit_same|]; intros ? _; eapply fit_bind; [apply fit_same|]; intros ? _; apply fit_ret; exact Hit).
    exact (F r).
  - rewrite IH. split; [reflexivity|]. cbn. lia.
  - rewrite IH. reflexivity.
  - rewrite IH. reflexivity.
Qed.
Lemma fit_value N k : forall n, N + k <= n -> fit (value_fits k) (parse_value_d fok N k) (parse_value fok n).
Proof.
  induction k as [|k IH]; intros n Hn; [apply fit_fuel|]. destruct n as [|n]; [lia|]. cbn [parse_value parse_value_d].
  ff; try exact I.
  - apply IH; lia.
  - match goal with H : Forall _ _ |- _ => exact H end.
  - unfold parse_object_field. eapply fit_bind; [apply fit_same|]. intros t _. eapply fit_bind; [apply fit_same|]. intros ? _. eapply fit_bind; [apply IH; lia|]. intros v Hv.
    apply (fit_ret (fun f : bytes * value => value_fits k (snd f))). exact Hv.
  - match goal with H : Forall _ _ |- _ => exact H end.
Qed.
Section Fuel3.
Variables N k n : nat.
Hypothesis HN : N + k <= n.
Lemma fit_default : fit (option_fits (value_fits k)) (parse_default_d fok N k) (parse_default fok n).
Proof. unfold parse_default, parse_default_d. ff; [apply fit_value, HN|assumption|exact I]. Qed.
Lemma fit_args : fit (args_fit k) (parse_arguments_d fok N k) (parse_arguments fok n).
Proof.
  unfold parse_arguments, parse_arguments_d. eapply fit_bind; [apply fit_same|]. intros b _. apply fit_if; [|apply fit_ret; constructor]. apply fit_loop; [|lia].
  unfold parse_argument, parse_argument_d. ff; [apply fit_value, HN|assumption].
Qed.
Lemma fit_dirs l : fit (dirs_fit k) (parse_directives_d fok N k l) (parse_directives fok n l).
Proof. unfold parse_directives, parse_directives_d. apply fit_loop; [|lia]. unfold parse_directive, parse_directive_d. ff; [apply fit_args|assumption]. Qed.
Lemma fit_cond : fit (ty_fits k) (parse_type_condition_d N k) (parse_type_condition n).
Proof.
  unfold parse_type_condition, parse_type_condition_d. eapply fit_bind; [apply fit_same|]. intros ? _. eapply fit_bind; [apply fit_type; lia|]. intros t Ht.
  destruct t; cbn [named_only]; [apply fit_ret, Ht|apply fit_perr..].
Qed.
End Fuel3.
Lemma fit_selset N k : forall n o, N + k <= n -> fit (sels_fit k) (parse_selset_d fok N k o) (parse_selset fok n o).
Proof.
  induction k as [|k IH]; intros n o Hn; [apply fit_fuel|]. destruct n as [|n]; [lia|]. cbn [parse_selset parse_selset_d]. assert (HN : N + k <= n) by lia.
  eapply fit_bind; [apply fit_same|]. intros b _. apply fit_if; [|apply fit_if; [apply fit_ret; constructor|apply fit_perr]].
  eapply fit_bind; [|intros ss Hss; eapply fit_bind; [apply fit_same|]; intros ? _; apply fit_ret; exact Hss]. cbn [sels_fit]. apply fit_do; [|lia].
  unfold parse_selection_d, parse_selection. eapply fit_bind; [apply fit_same|]. intros d _. apply fit_if; [eapply fit_bind; [apply fit_same|]; intros s _; apply fit_if|].
  - unfold parse_spread_d, parse_spread. eapply fit_bind; [apply fit_same|]. intros t _. eapply fit_bind; [apply fit_dirs, HN|]. intros ds Hds. apply fit_ret. exact Hds.
  - unfold parse_inline_d, parse_inline. eapply fit_bind; [apply fit_same|]. intros c _. eapply (fit_bind (option_fits (ty_fits k))).
    { apply fit_if; [eapply fit_bind; [apply fit_cond, HN|]; intros t Ht; apply fit_ret; exact Ht|apply fit_ret; exact I]. }
    intros t Ht. eapply fit_bind; [apply fit_dirs, HN|]. intros ds Hds. eapply fit_bind; [apply IH, HN|]. intros ss Hss. apply fit_ret. repeat split; assumption.
  - unfold parse_field_d, parse_field. eapply fit_bind; [apply fit_same|]. intros t _. eapply fit_bind; [apply fit_same|]. intros c _. eapply fit_bind; [apply fit_same|]. intros an _.
    eapply fit_bind; [apply fit_args, HN|]. intros args Ha. eapply fit_bind; [apply fit_dirs, HN|]. intros ds Hds. eapply fit_bind; [apply IH, HN|]. intros ss Hss. apply fit_ret. repeat split; assumption.
Qed.
Section Fuel4.
Variables N k n : nat.
Hypothesis HN : N + k <= n.
Ltac fb := eapply fit_bind; [first [apply fit_same | apply fit_type; lia | apply fit_dirs, HN | apply fit_default, HN | apply fit_selset, HN | apply fit_cond, HN | eauto]|intros ? ?].
Lemma fit_vardefs : fit (Forall (fun v => ty_fits k (v_type v) /\ option_fits (value_fits k) (v_default v))) (parse_vardefs_d fok N k) (parse_vardefs fok n).
Proof.
  unfold parse_vardefs, parse_vardefs_d. fb. apply fit_if; [|apply fit_ret; constructor]. eapply fit_bind; [|intros l Hl; eapply fit_bind; [apply fit_same|]; intros ? _; apply fit_ret; exact Hl].
  apply fit_do; [|lia]. unfold parse_vardef_d, parse_vardef. do 5 fb. apply fit_ret. split; assumption.
Qed.
Lemma fit_operation b : fit (body_fits k) (parse_operation_d fok N k b) (parse_operation fok n b).
Proof.
  pose proof fit_vardefs. unfold parse_operation_d, parse_operation. apply fit_if.
  - fb. apply fit_ret. cbn. split; [constructor|]. split; [constructor|assumption].
  - do 5 fb. apply fit_ret. cbn. repeat split; assumption.
Qed.
Lemma fit_fragment : fit (option_fits (body_fits k)) (parse_fragment_d fok N k) (parse_fragment fok n).
Proof.
  unfold parse_fragment_d, parse_fragment. fb. apply fit_if; [apply fit_ret; exact I|]. fb. destruct a0 as [t|]; [|apply fit_ret; exact I]. apply fit_if; [apply fit_perr|]. do 3 fb. apply fit_ret. cbn. repeat split; assumption.
Qed.
Lemma fit_ivdef l : fit (iv_fits k) (parse_ivdef_d fok N k l) (parse_ivdef fok n l).
Proof. unfold parse_ivdef_d, parse_ivdef. do 6 fb. apply fit_ret. repeat split; assumption. Qed.
Lemma fit_argdefs : fit (Forall (iv_fits k)) (parse_argdefs_d fok N k) (parse_argdefs fok n).
Proof.
  unfold parse_argdefs_d, parse_argdefs. fb. apply fit_if; [|apply fit_ret; constructor]. eapply fit_bind; [|intros l Hl; eapply fit_bind; [apply fit_same|]; intros ? _; apply fit_ret; exact Hl].
  apply fit_do; [apply fit_ivdef|lia].
Qed.
Lemma fit_fielddefs : fit (Forall (fd_fits k)) (parse_fielddefs_d fok N k) (parse_fielddefs fok n).
Proof.
  pose proof fit_argdefs. unfold parse_fielddefs_d, parse_fielddefs. fb. apply fit_if; [|apply fit_ret; constructor]. apply fit_do; [|lia].
  unfold parse_fielddef_d, parse_fielddef. do 6 fb. apply fit_ret. repeat split; assumption.
Qed.
Lemma fit_enumvals : fit (Forall (fun v => dirs_fit k (ev_dirs v))) (parse_enumvals_d fok N k) (parse_enumvals fok n).
Proof.
  unfold parse_enumvals_d, parse_enumvals. fb. apply fit_if; [|apply fit_ret; constructor]. apply fit_do; [|lia].
  unfold parse_enumval_d, parse_enumval. do 2 fb. apply fit_if; [apply fit_fail|]. fb. apply fit_ret. assumption.
Qed.
Lemma fit_inputs : fit (Forall (iv_fits k)) (parse_inputs_d fok N k) (parse_inputs fok n).
Proof. unfold parse_inputs_d, parse_inputs. fb. apply fit_if; [|apply fit_ret; constructor]. apply fit_do; [apply fit_ivdef|lia]. Qed.
Lemma fit_implements : fit (Forall (ty_fits k)) (parse_implements_d N k) (parse_implements n).
Proof. unfold parse_implements_d, parse_implements. fb. apply fit_if; [|apply fit_ret; constructor]. fb. apply fit_do; [apply fit_type; lia|lia]. Qed.
Lemma fit_members : fit (Forall (ty_fits k)) (parse_members_d N k) (parse_members n).
Proof. unfold parse_members_d, parse_members. fb. apply fit_if; [|apply fit_ret; constructor]. fb. apply fit_do; [apply fit_type; lia|lia]. Qed.
Lemma fit_none {A} (Q : A -> Prop) : fit (Forall Q) (pret []) (pret []).
Proof. apply fit_ret. constructor. Qed.
Lemma fit_typebody d : fit (td_fits k) (parse_typebody_d fok N k d) (parse_typebody fok n d).
Proof.
  unfold parse_typebody_d, parse_typebody. fb. destruct (kind_of_kw (tlit a)) as [q|]; [|apply fit_crash]. fb.
  eapply (fit_bind (Forall (ty_fits k))); [destruct q; first [apply fit_implements|apply fit_none]|intros im Him]. fb.
  eapply (fit_bind (Forall (fd_fits k))); [destruct q; first [apply fit_fielddefs|apply fit_none]|intros fs Hfs].
  eapply (fit_bind (Forall (ty_fits k))); [destruct q; first [apply fit_members|apply fit_none]|intros ms Hms].
  eapply (fit_bind (Forall (fun v => dirs_fit k (ev_dirs v)))); [destruct q; first [apply fit_enumvals|apply fit_none]|intros vs Hvs].
  eapply (fit_bind (Forall (iv_fits k))); [destruct q; first [apply fit_inputs|apply fit_none]|intros is His].
  apply fit_ret. repeat split; assumption.
Qed.
Lemma fit_optypedefs : fit (Forall (fun o => ty_fits k (ot_type o))) (parse_optypedefs_d N k) (parse_optypedefs n).
Proof.
  unfold parse_optypedefs_d, parse_optypedefs. fb. eapply fit_bind; [|intros l Hl; eapply fit_bind; [apply fit_same|]; intros ? _; apply fit_ret; exact Hl]. apply fit_do; [|lia].
  unfold parse_optypedef_d, parse_optypedef. do 3 fb. destruct a2; cbn [named_only]; [|eapply (fit_bind (ty_fits k)); [apply fit_perr|intros; apply fit_ret; assumption]..].
  eapply (fit_bind (ty_fits k)); [apply fit_ret; assumption|intros; apply fit_ret; assumption].
Qed.
Lemma fit_schemadef : fit (sd_fits k) (parse_schemadef_d fok N k) (parse_schemadef fok n).
Proof. pose proof fit_optypedefs. unfold parse_schemadef_d, parse_schemadef. do 3 fb. apply fit_ret. split; assumption. Qed.
Lemma fit_schemaext : fit (sd_fits k) (parse_schemaext_d fok N k) (parse_schemaext fok n).
Proof.
  unfold parse_schemaext_d, parse_schemaext. do 3 fb. eapply (fit_bind (Forall (fun o => ty_fits k (ot_type o)))); [apply fit_if; [apply fit_optypedefs|apply fit_none]|intros ops Hops].
  destruct a0; [destruct ops; [apply fit_perr|]|]; apply fit_ret; split; assumption.
Qed.
Lemma fit_dirdef d : fit (fun x => Forall (iv_fits k) (dd_args x)) (parse_dirdef_d fok N k d) (parse_dirdef fok n d).
Proof.
  pose proof fit_argdefs. unfold parse_dirdef_d, parse_dirdef. fb. apply fit_if; [apply fit_crash|]. do 4 fb.
  eapply (fit_bind any); [unfold parse_dirlocs_d, parse_dirlocs; fb; eapply fit_bind; [apply (fit_do any); [apply fit_same|lia]|intros; apply fit_ret; exact I]|intros; apply fit_ret; assumption].
Qed.
Lemma fit_body : fit (option_fits (body_fits k)) (parse_body_d fok N k) (parse_body fok n).
Proof.
  unfold parse_body_d, parse_body. fb. cbv zeta. apply fit_if; [eapply fit_bind; [apply fit_operation|]; intros b Hb; apply fit_ret; exact Hb|]. apply fit_if; [apply fit_fragment|]. apply fit_if.
  - eapply (fit_bind (body_fits k)); [|intros b Hb; apply fit_ret; exact Hb]. unfold parse_tsext_d, parse_tsext. do 2 fb. apply fit_if; [eapply fit_bind; [apply fit_schemaext|intros; apply fit_ret; assumption]|]. fb.
    apply fit_if; [eapply fit_bind; [apply fit_typebody|intros; apply fit_ret; assumption]|apply fit_perr].
  - do 2 fb. apply fit_if; [|apply fit_perr]. eapply (fit_bind (body_fits k)); [|intros b Hb; apply fit_ret; exact Hb]. unfold parse_tsdef_d, parse_tsdef. fb.
    apply fit_if; [eapply fit_bind; [apply fit_schemadef|intros; apply fit_ret; assumption]|]. fb.
    apply fit_if; [eapply fit_bind; [apply fit_dirdef|intros; apply fit_ret; assumption]|]. fb.
    apply fit_if; [eapply fit_bind; [apply fit_typebody|intros; apply fit_ret; assumption]|apply fit_crash].
Qed.
Lemma fit_parse_loop m : forall m' c, m <= m' -> fit (fun x => Forall (fun d => body_fits k (def_body d)) (fst x)) (parse_loop_d fok N k m c) (parse_loop fok n m' c).
Proof.
  induction m as [|m IH]; intros m' c Hm; [apply fit_fuel|]. destruct m' as [|m']; [lia|]. cbn [parse_loop parse_loop_d].
  eapply (fit_bind (option_fits (fun d => body_fits k (def_body d)))).
  { unfold parse_definition_d, parse_definition. fb. eapply fit_bind; [apply fit_body|]. intros o Ho. apply fit_ret. destruct o; [exact Ho|exact I]. }
  intros [d|] Hd; [|apply fit_crash]. cbv zeta. fb. apply fit_if; [apply fit_perr|]. fb. apply fit_if; [apply fit_ret; cbn; auto|]. eapply fit_bind; [apply IH; lia|]. intros x Hx. apply fit_ret. cbn. auto.
Qed.
End Fuel4.
End Result.

(** ** More room changes nothing: the same argument, between two amounts of room. *)
Section More.
Variable fok : bytes -> bool.
Lemma more_type N k : forall j, k <= j -> fit (ty_fits k) (parse_type_d N k) (parse_type_d N j).
Proof.
  induction k as [|k IH]; intros j Hn; [apply fit_fuel|]. destruct j as [|j]; [lia|]. cbn [parse_type_d].
  eapply fit_bind; [apply fit_same|]. intros b _. destruct b; [|ff; exact I].
  intros ts. specialize (IH j ltac:(lia) ts). destruct k as [|k]; [exact I|]. destruct (parse_type_d N (S k) ts) as [it r|x r|[]]; try exact I.
  - destruct IH as [-> Hit]. assert (F : fit (ty_fits (S (S k))) (must1 KPunct "]" ;;; nn <- skip1 KPunct "!" ;; pret (TList it nn)) (must1 KPunct "]" ;;; nn <- skip1 KPunct "!" ;; pret (TList it nn))) by (eapply fit_bind; [apply fit_same|]; intros ? _; eapply fit_bind; [apply fit_same|]; intros ? _; apply fit_ret; exact Hit).
    exact (F r).
  - rewrite IH. split; [reflexivity|]. cbn. lia.
  - rewrite IH. reflexivity.
  - rewrite IH. reflexivity.
Qed.
Lemma more_value N k : forall j, k <= j -> fit (value_fits k) (parse_value_d fok N k) (parse_value_d fok N j).
Proof.
  induction k as [|k IH]; intros j Hn; [apply fit_fuel|]. destruct j as [|j]; [lia|]. cbn [parse_value_d].
  ff; try exact I.
  - apply IH; lia.
  - match goal with H : Forall _ _ |- _ => exact H end.
  - unfold parse_object_field. eapply fit_bind; [apply fit_same|]. intros t _. eapply fit_bind; [apply fit_same|]. intros ? _. eapply fit_bind; [apply IH; lia|]. intros v Hv.
    apply (fit_ret (fun f : bytes * value => value_fits k (snd f))). exact Hv.
  - match goal with H : Forall _ _ |- _ => exact H end.
Qed.
Section Fuel3.
Variables N k j : nat.
Hypothesis HN : k <= j.
Lemma more_default : fit (option_fits (value_fits k)) (parse_default_d fok N k) (parse_default_d fok N j).
Proof. unfold parse_default_d. ff; [apply more_value, HN|assumption|exact I]. Qed.
Lemma more_args : fit (args_fit k) (parse_arguments_d fok N k) (parse_arguments_d fok N j).
Proof.
  unfold parse_arguments_d. eapply fit_bind; [apply fit_same|]. intros b _. apply fit_if; [|apply fit_ret; constructor]. apply fit_loop; [|lia].
  unfold parse_argument_d. ff; [apply more_value, HN|assumption].
Qed.
Lemma more_dirs l : fit (dirs_fit k) (parse_directives_d fok N k l) (parse_directives_d fok N j l).
Proof. unfold parse_directives_d. apply fit_loop; [|lia]. unfold parse_directive_d. ff; [apply more_args|assumption]. Qed.
Lemma more_cond : fit (ty_fits k) (parse_type_condition_d N k) (parse_type_condition_d N j).
Proof.
  unfold parse_type_condition_d. eapply fit_bind; [apply fit_same|]. intros ? _. eapply fit_bind; [apply more_type; lia|]. intros t Ht.
  destruct t; cbn [named_only]; [apply fit_ret, Ht|apply fit_perr..].
Qed.
End Fuel3.
Lemma more_selset N k : forall j o, k <= j -> fit (sels_fit k) (parse_selset_d fok N k o) (parse_selset_d fok N j o).
Proof.
  induction k as [|k IH]; intros j o Hn; [apply fit_fuel|]. destruct j as [|j]; [lia|]. cbn [parse_selset_d]. assert (HN : k <= j) by lia.
  eapply fit_bind; [apply fit_same|]. intros b _. apply fit_if; [|apply fit_if; [apply fit_ret; constructor|apply fit_perr]].
  eapply fit_bind; [|intros ss Hss; eapply fit_bind; [apply fit_same|]; intros ? _; apply fit_ret; exact Hss]. cbn [sels_fit]. apply fit_do; [|lia].
  unfold parse_selection_d. eapply fit_bind; [apply fit_same|]. intros d _. apply fit_if; [eapply fit_bind; [apply fit_same|]; intros s _; apply fit_if|].
  - unfold parse_spread_d. eapply fit_bind; [apply fit_same|]. intros t _. eapply fit_bind; [apply more_dirs, HN|]. intros ds Hds. apply fit_ret. exact Hds.
  - unfold parse_inline_d. eapply fit_bind; [apply fit_same|]. intros c _. eapply (fit_bind (option_fits (ty_fits k))).
    { apply fit_if; [eapply fit_bind; [apply more_cond, HN|]; intros t Ht; apply fit_ret; exact Ht|apply fit_ret; exact I]. }
    intros t Ht. eapply fit_bind; [apply more_dirs, HN|]. intros ds Hds. eapply fit_bind; [apply IH, HN|]. intros ss Hss. apply fit_ret. repeat split; assumption.
  - unfold parse_field_d. eapply fit_bind; [apply fit_same|]. intros t _. eapply fit_bind; [apply fit_same|]. intros c _. eapply fit_bind; [apply fit_same|]. intros an _.
    eapply fit_bind; [apply more_args, HN|]. intros args Ha. eapply fit_bind; [apply more_dirs, HN|]. intros ds Hds. eapply fit_bind; [apply IH, HN|]. intros ss Hss. apply fit_ret. repeat split; assumption.
Qed.
Section Fuel4.
Variables N k j : nat.
Hypothesis HN : k <= j.
Ltac fb := eapply fit_bind; [first [apply fit_same | apply more_type; lia | apply more_dirs, HN | apply more_default, HN | apply more_selset, HN | apply more_cond, HN | eauto]|intros ? ?].
Lemma more_vardefs : fit (Forall (fun v => ty_fits k (v_type v) /\ option_fits (value_fits k) (v_default v))) (parse_vardefs_d fok N k) (parse_vardefs_d fok N j).
Proof.
  unfold parse_vardefs_d. fb. apply fit_if; [|apply fit_ret; constructor]. eapply fit_bind; [|intros l Hl; eapply fit_bind; [apply fit_same|]; intros ? _; apply fit_ret; exact Hl].
  apply fit_do; [|lia]. unfold parse_vardef_d. do 5 fb. apply fit_ret. split; assumption.
Qed.
Lemma more_operation b : fit (body_fits k) (parse_operation_d fok N k b) (parse_operation_d fok N j b).
Proof.
  pose proof more_vardefs. unfold parse_operation_d. apply fit_if.
  - fb. apply fit_ret. cbn. split; [constructor|]. split; [constructor|assumption].
  - do 5 fb. apply fit_ret. cbn. repeat split; assumption.
Qed.
Lemma more_fragment : fit (option_fits (body_fits k)) (parse_fragment_d fok N k) (parse_fragment_d fok N j).
Proof.
  unfold parse_fragment_d. fb. apply fit_if; [apply fit_ret; exact I|]. fb. destruct a0 as [t|]; [|apply fit_ret; exact I]. apply fit_if; [apply fit_perr|]. do 3 fb. apply fit_ret. cbn. repeat split; assumption.
Qed.
Lemma more_ivdef l : fit (iv_fits k) (parse_ivdef_d fok N k l) (parse_ivdef_d fok N j l).
Proof. unfold parse_ivdef_d. do 6 fb. apply fit_ret. repeat split; assumption. Qed.
Lemma more_argdefs : fit (Forall (iv_fits k)) (parse_argdefs_d fok N k) (parse_argdefs_d fok N j).
Proof.
  unfold parse_argdefs_d. fb. apply fit_if; [|apply fit_ret; constructor]. eapply fit_bind; [|intros l Hl; eapply fit_bind; [apply fit_same|]; intros ? _; apply fit_ret; exact Hl].
  apply fit_do; [apply more_ivdef|lia].
Qed.
Lemma more_fielddefs : fit (Forall (fd_fits k)) (parse_fielddefs_d fok N k) (parse_fielddefs_d fok N j).
Proof.
  pose proof more_argdefs. unfold parse_fielddefs_d. fb. apply fit_if; [|apply fit_ret; constructor]. apply fit_do; [|lia].
  unfold parse_fielddef_d. do 6 fb. apply fit_ret. repeat split; assumption.
Qed.
Lemma more_enumvals : fit (Forall (fun v => dirs_fit k (ev_dirs v))) (parse_enumvals_d fok N k) (parse_enumvals_d fok N j).
Proof.
  unfold parse_enumvals_d. fb. apply fit_if; [|apply fit_ret; constructor]. apply fit_do; [|lia].
  unfold parse_enumval_d. do 2 fb. apply fit_if; [apply fit_fail|]. fb. apply fit_ret. assumption.
Qed.
Lemma more_inputs : fit (Forall (iv_fits k)) (parse_inputs_d fok N k) (parse_inputs_d fok N j).
Proof. unfold parse_inputs_d. fb. apply fit_if; [|apply fit_ret; constructor]. apply fit_do; [apply more_ivdef|lia]. Qed.
Lemma more_implements : fit (Forall (ty_fits k)) (parse_implements_d N k) (parse_implements_d N j).
Proof. unfold parse_implements_d. fb. apply fit_if; [|apply fit_ret; constructor]. fb. apply fit_do; [apply more_type; lia|lia]. Qed.
Lemma more_members : fit (Forall (ty_fits k)) (parse_members_d N k) (parse_members_d N j).
Proof. unfold parse_members_d. fb. apply fit_if; [|apply fit_ret; constructor]. fb. apply fit_do; [apply more_type; lia|lia]. Qed.
Lemma more_typebody d : fit (td_fits k) (parse_typebody_d fok N k d) (parse_typebody_d fok N j d).
Proof.
  unfold parse_typebody_d. fb. destruct (kind_of_kw (tlit a)) as [q|]; [|apply fit_crash]. fb.
  eapply (fit_bind (Forall (ty_fits k))); [destruct q; first [apply more_implements|apply fit_none]|intros im Him]. fb.
  eapply (fit_bind (Forall (fd_fits k))); [destruct q; first [apply more_fielddefs|apply fit_none]|intros fs Hfs].
  eapply (fit_bind (Forall (ty_fits k))); [destruct q; first [apply more_members|apply fit_none]|intros ms Hms].
  eapply (fit_bind (Forall (fun v => dirs_fit k (ev_dirs v)))); [destruct q; first [apply more_enumvals|apply fit_none]|intros vs Hvs].
  eapply (fit_bind (Forall (iv_fits k))); [destruct q; first [apply more_inputs|apply fit_none]|intros is His].
  apply fit_ret. repeat split; assumption.
Qed.
Lemma more_optypedefs : fit (Forall (fun o => ty_fits k (ot_type o))) (parse_optypedefs_d N k) (parse_optypedefs_d N j).
Proof.
  unfold parse_optypedefs_d. fb. eapply fit_bind; [|intros l Hl; eapply fit_bind; [apply fit_same|]; intros ? _; apply fit_ret; exact Hl]. apply fit_do; [|lia].
  unfold parse_optypedef_d. do 3 fb. destruct a2; cbn [named_only]; [|eapply (fit_bind (ty_fits k)); [apply fit_perr|intros; apply fit_ret; assumption]..].
  eapply (fit_bind (ty_fits k)); [apply fit_ret; assumption|intros; apply fit_ret; assumption].
Qed.
Lemma more_schemadef : fit (sd_fits k) (parse_schemadef_d fok N k) (parse_schemadef_d fok N j).
Proof. pose proof more_optypedefs. unfold parse_schemadef_d. do 3 fb. apply fit_ret. split; assumption. Qed.
Lemma more_schemaext : fit (sd_fits k) (parse_schemaext_d fok N k) (parse_schemaext_d fok N j).
Proof.
  unfold parse_schemaext_d. do 3 fb. eapply (fit_bind (Forall (fun o => ty_fits k (ot_type o)))); [apply fit_if; [apply more_optypedefs|apply fit_none]|intros ops Hops].
  destruct a0; [destruct ops; [apply fit_perr|]|]; apply fit_ret; split; assumption.
Qed.
Lemma more_dirdef d : fit (fun x => Forall (iv_fits k) (dd_args x)) (parse_dirdef_d fok N k d) (parse_dirdef_d fok N j d).
Proof.
  pose proof more_argdefs. unfold parse_dirdef_d. fb. apply fit_if; [apply fit_crash|]. do 4 fb.
  eapply (fit_bind any); [unfold parse_dirlocs_d; fb; eapply fit_bind; [apply (fit_do any); [apply fit_same|lia]|intros; apply fit_ret; exact I]|intros; apply fit_ret; assumption].
Qed.
Lemma more_body : fit (option_fits (body_fits k)) (parse_body_d fok N k) (parse_body_d fok N j).
Proof.
  unfold parse_body_d. fb. cbv zeta. apply fit_if; [eapply fit_bind; [apply more_operation|]; intros b Hb; apply fit_ret; exact Hb|]. apply fit_if; [apply more_fragment|]. apply fit_if.
  - eapply (fit_bind (body_fits k)); [|intros b Hb; apply fit_ret; exact Hb]. unfold parse_tsext_d. do 2 fb. apply fit_if; [eapply fit_bind; [apply more_schemaext|intros; apply fit_ret; assumption]|]. fb.
    apply fit_if; [eapply fit_bind; [apply more_typebody|intros; apply fit_ret; assumption]|apply fit_perr].
  - do 2 fb. apply fit_if; [|apply fit_perr]. eapply (fit_bind (body_fits k)); [|intros b Hb; apply fit_ret; exact Hb]. unfold parse_tsdef_d. fb.
    apply fit_if; [eapply fit_bind; [apply more_schemadef|intros; apply fit_ret; assumption]|]. fb.
    apply fit_if; [eapply fit_bind; [apply more_dirdef|intros; apply fit_ret; assumption]|]. fb.
    apply fit_if; [eapply fit_bind; [apply more_typebody|intros; apply fit_ret; assumption]|apply fit_crash].
Qed.
Lemma more_parse_loop m : forall m' c, m <= m' -> fit (fun x => Forall (fun d => body_fits k (def_body d)) (fst x)) (parse_loop_d fok N k m c) (parse_loop_d fok N j m' c).
Proof.
  induction m as [|m IH]; intros m' c Hm; [apply fit_fuel|]. destruct m' as [|m']; [lia|]. cbn [parse_loop_d].
  eapply (fit_bind (option_fits (fun d => body_fits k (def_body d)))).
  { unfold parse_definition_d. fb. eapply fit_bind; [apply more_body|]. intros o Ho. apply fit_ret. destruct o; [exact Ho|exact I]. }
  intros [d|] Hd; [|apply fit_crash]. cbv zeta. fb. apply fit_if; [apply fit_perr|]. fb. apply fit_if; [apply fit_ret; cbn; auto|]. eapply fit_bind; [apply IH; lia|]. intros x Hx. apply fit_ret. cbn. auto.
Qed.
End Fuel4.
End More.
