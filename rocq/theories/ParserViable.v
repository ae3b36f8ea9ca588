(** * ParserViable: where the parser stops, what came before can be completed to a document.

    [good T0 T p g]: when [p] returns, what it consumed derives [g]; when it fails, the tokens before the offending one ([late] relates it
    to the message and the place where [p] stopped) can be completed to a derivation of [g].  [T]: what may follow the completed
    construct; [T0]: what may come first in a completion when nothing has been consumed. *)
From Verif Require Import Base Utf8 Lexer AST Parser Grammar GrammarProps GrammarFrame ParserWp ParserSound ParserLocal ParserComplete.
Local Open Scope p_scope.

Definition cond := list token -> Prop.
Definition any : cond := fun _ => True.
(** A list type (possibly not closed) stands between [s] and [r]. *)
Definition list_type_stands (s r : list token) : Prop :=
  exists s1, pun "[" s s1 /\ ((exists t, g_type Any s t r) \/ exists t, g_type Any s1 t r).
(** The message [e], given when the parser stands at [r], is about the token at the head of [s]. *)
Inductive late (e : bytes) : list token -> list token -> Prop :=
(* the current token *)
| late_here t r ws : e = unexpected t ws -> late e (t :: r) (t :: r)
| late_todo t r : e = todo -> late e (t :: r) (t :: r)
(* the token just consumed *)
| late_int t r : tkind t = KInt -> e = number_error (B "Atoi") (tlit t) -> atoi (tlit t) = None -> late e (t :: r) r
| late_float t r : tkind t = KFloat -> e = number_error (B "ParseFloat") (tlit t) -> late e (t :: r) r
| late_enum t r : tkind t = KName -> In (tlit t) [B "false"; B "true"; B "null"] -> e = unexpected t [want KName "valid enum value"] -> late e (t :: r) r
(* the name "on" of a fragment: the message is about the token after it *)
| late_on t u r : tkind t = KName -> tlit t = B "on" -> e = unexpected u [want KName "!on"] -> late e (t :: u :: r) (u :: r)
(* a list type where only a name may stand: the message is about the token where the type ends *)
| late_list s u r : list_type_stands s (u :: r) -> e = unexpected u [B "NamedType"] \/ e = unexpected u [want KPunct "]"] -> late e s (u :: r).

(** Words to complete with: punctuators and names made of letters. *)
Definition letterb (b : byte) : bool := ((65 <=? zb b) && (zb b <=? 90) || (97 <=? zb b) && (zb b <=? 122) || (zb b =? 95))%Z.
Definition word_tok (t : token) : bool :=
  match tkind t with
  | KPunct => inb (tlit t) (map B ["!"; "$"; "&"; "("; ")"; ":"; "="; "@"; "["; "]"; "{"; "|"; "}"; "..."]%string)
  | KName => match tlit t with [] => false | l => forallb letterb l end
  | _ => false
  end.
Definition words (w : list token) : bool := forallb word_tok w.
Lemma words_app w w' : words w = true -> words w' = true -> words (w ++ w') = true.
Proof. intros H H'. unfold words. rewrite forallb_app. apply andb_true_iff. auto. Qed.
Definition lates (e : bytes) (s r w : list token) : Prop := late e s r /\ words w = true.
Ltac lh := split; [solve [eapply late_here; reflexivity|eapply late_todo; reflexivity|auto]|try assumption; try reflexivity].

Definition good {A} (T0 T : cond) (p : P A) (g : G A) : Prop := forall ts,
  match p ts with
  | POk a r => g ts a r
  | PErr e r => exists s pre w a, lates e s r w /\ ts = pre ++ s /\ (pre = [] -> forall z, T z -> T0 (w ++ z)) /\ forall z, T z -> g (pre ++ w ++ z) a z
  | PCrash _ => True
  end.
(** [g] can be derived by some tokens. *)
Definition scr {A} (T0 T : cond) (g : G A) : Prop := exists w a, words w = true /\ forall z, T z -> T0 (w ++ z) /\ g (w ++ z) a z.
(** A derivation of [g] stays one when what follows is changed. *)
Definition fr {A} (T : cond) (g : G A) : Prop := forall ts a r, g ts a r -> exists p, ts = p ++ r /\ forall z, T z \/ fronts r z -> g (p ++ z) a z.

Definition gret {A} (a : A) : G A := fun ts b r => b = a /\ r = ts.
Definition gbind {A C} (g : G A) (k : A -> G C) : G C := fun ts c r => exists a r1, g ts a r1 /\ k a r1 c r.
Definition gtok (k : kind) (L : bytes -> Prop) : G token := fun ts t r => ts = t :: r /\ terminal k (tlit t) ts r /\ L (tlit t).
Definition sub (T T' : cond) : Prop := forall z, T z -> T' z.
Lemma sub_any T : sub T any. Proof. intros z _. exact I. Qed.
Lemma sub_refl T : sub T T. Proof. intros z H. exact H. Qed.
#[local] Hint Resolve sub_any sub_refl : core.

Lemma fronts_app (p s x : list token) : p <> [] -> fronts (p ++ s) (p ++ x).
Proof. destruct p; [congruence|]. reflexivity. Qed.
Lemma good_mono {A} T0 T (p : P A) (g g' : G A) : good T0 T p g -> (forall ts a r, g ts a r -> g' ts a r) -> good T0 T p g'.
Proof.
  intros H Hg ts. specialize (H ts). destruct (p ts) as [a r|e r|c]; auto. destruct H as (s & pre & w & a & L & E & H1 & H2). exists s, pre, w, a. split; [exact L|]. split; [exact E|]. split; auto.
Qed.
Lemma good_cond {A} T0 T T0' T' (p : P A) (g : G A) : good T0 T p g -> sub T0 T0' -> sub T' T -> good T0' T' p g.
Proof.
  intros H S0 S ts. specialize (H ts). destruct (p ts) as [a r|e r|c]; auto. destruct H as (s & pre & w & a & L & E & H1 & H2). exists s, pre, w, a. split; [exact L|]. split; [exact E|]. split; auto.
Qed.
Lemma good_front {A} T0 T T0' (p : P A) (g : G A) : good T0 T p g -> sub T0 T0' -> good T0' T p g.
Proof. intros H S0. eapply good_cond; eauto. Qed.
Lemma scr_mono {A} T0 T (g g' : G A) : scr T0 T g -> (forall ts a r, g ts a r -> g' ts a r) -> scr T0 T g'.
Proof. intros (w & a & Sw & H) Hg. exists w, a. split; [exact Sw|]. intros z Hz. destruct (H z Hz). auto. Qed.
Lemma scr_cond {A} T0 T T0' T' (g : G A) : scr T0 T g -> sub T0 T0' -> sub T' T -> scr T0' T' g.
Proof. intros (w & a & Sw & H) S0 S. exists w, a. split; [exact Sw|]. intros z Hz. destruct (H z (S z Hz)). auto. Qed.
Lemma good_ret {A} T0 T (a : A) : good T0 T (pret a) (gret a).
Proof. intros ts. cbn. split; reflexivity. Qed.
Lemma scr_ret {A} T0 T (a : A) : sub T T0 -> scr T0 T (gret a).
Proof. intros S. exists [], a. split; [reflexivity|]. intros z Hz. split; [apply S, Hz|]. split; reflexivity. Qed.
Lemma good_bind {A C} T0 T1 T (m : P A) (k : A -> P C) (g : G A) (gk : A -> G C) :
  good T0 T1 m g -> fr T1 g -> (sub T1 T0 \/ forall ts a, ~ g ts a ts) -> (forall a, good T1 T (k a) (gk a)) -> (forall a, scr T1 T (gk a)) ->
  good T0 T (pbind m k) (gbind g gk).
Proof.
  intros Hm Hf Hn Hk Hs ts. unfold pbind. specialize (Hm ts). destruct (m ts) as [a r|e r|c]; [| |exact I].
  - specialize (Hk a r). destruct (k a r) as [b r2|e r2|c]; [exists a, r; auto| |exact I].
    destruct Hk as (s & pre & w & b & L & E & H1 & H2). destruct (Hf _ _ _ Hm) as (p & Ep & Hp). exists s, (p ++ pre), w, b.
    assert (Hc : forall z, T z -> T1 (pre ++ w ++ z) \/ fronts r (pre ++ w ++ z)).
    { intros z Hz. destruct pre as [|t pre]; [left; apply (H1 eq_refl z Hz)|right; rewrite E; apply fronts_app; discriminate]. }
    split; [exact L|]. split; [rewrite <- app_assoc; congruence|]. split.
    + intros Epp z Hz. apply app_eq_nil in Epp. destruct Epp as [-> ->]. destruct Hn as [S|N]; [apply S, (H1 eq_refl z Hz)|]. exfalso. cbn in Ep, E. subst r ts. exact (N _ _ Hm).
    + intros z Hz. exists a, (pre ++ w ++ z). rewrite <- app_assoc. split; [apply Hp, Hc, Hz|apply H2, Hz].
  - destruct Hm as (s & pre & w & a & L & E & H1 & H2). destruct (Hs a) as (w2 & b & Sw & Hw). exists s, pre, (w ++ w2), b. split; [destruct L as [L Lw]; split; [exact L|apply words_app; assumption]|]. split; [exact E|]. split.
    + intros Ep z Hz. rewrite <- app_assoc. apply (H1 Ep). apply Hw, Hz.
    + intros z Hz. destruct (Hw z Hz) as [K1 K2]. exists a, (w2 ++ z). rewrite <- app_assoc. split; [apply H2, K1|exact K2].
Qed.
Lemma scr_bind {A C} T0 T1 T (g : G A) (gk : A -> G C) : scr T0 T1 g -> (forall a, scr T1 T (gk a)) -> scr T0 T (gbind g gk).
Proof.
  intros (w & a & Sw & H) Hk. destruct (Hk a) as (w2 & b & Sw2 & H2). exists (w ++ w2), b. split; [apply words_app; assumption|]. intros z Hz. destruct (H2 z Hz) as [K1 K2]. destruct (H _ K1) as [K3 K4]. rewrite <- app_assoc.
  split; [exact K3|]. exists a, (w2 ++ z). auto.
Qed.
(** ** Tokens *)
Lemma fr_tok k L : fr any (gtok k L).
Proof. intros ts t r (-> & H & Hl). exists [t]. split; [reflexivity|]. intros z _. split; [reflexivity|]. split; [|exact Hl]. inversion H; subst. constructor. Qed.
Lemma tok_eats k L ts t : ~ gtok k L ts t ts.
Proof. intros (E & _). apply (f_equal (@List.length token)) in E. cbn in E. lia. Qed.
Definition front (T0 : cond) (k : kind) (l : bytes) : Prop := word_tok (mkTok k l 0 0) = true /\ forall z, T0 (mkTok k l 0 0 :: z).
Lemma front_words T0 k l : front T0 k l -> words [mkTok k l 0 0] = true.
Proof. intros [H _]. unfold words. cbn [forallb]. rewrite H. reflexivity. Qed.
Lemma scr_tok T0 T k (L : bytes -> Prop) l : L l -> front T0 k l -> scr T0 T (gtok k L).
Proof. intros H F. exists [mkTok k l 0 0], (mkTok k l 0 0). split; [apply (front_words _ _ _ F)|]. intros z _. split; [apply F|]. split; [reflexivity|]. split; [constructor|exact H]. Qed.
Lemma good_must T0 T (p : token -> bool) w k (L : bytes -> Prop) l : (forall t r, p t = true -> terminal k (tlit t) (t :: r) r /\ L (tlit t)) -> L l -> front T0 k l ->
  good T0 T (must p w) (gtok k L).
Proof.
  intros Hp Hl F [|t ts]; [exact I|]. unfold must, pbind, tok. destruct (p t) eqn:E.
  - destruct ts as [|t2 ts]; [exact I|]. cbn. split; [reflexivity|]. apply Hp, E.
  - unfold pfail. exists (t :: ts), [], [mkTok k l 0 0], (mkTok k l 0 0). split; [lh; apply (front_words _ _ _ F)|]. split; [reflexivity|]. split; [intros _ z _; apply F|].
    intros z _. split; [reflexivity|]. split; [constructor|exact Hl].
Qed.
Lemma good_must0 T0 T k l : front T0 k l -> good T0 T (must0 k) (gtok k (fun _ => True)).
Proof. intros F. apply (good_must T0 T _ _ k _ l); [|exact I|exact F]. intros t r H. split; [apply is0_term, H|exact I]. Qed.
Lemma is1_lit k l t : is1 k l t = true -> tkind t = k /\ tlit t = l.
Proof. apply is1_iff. Qed.
Lemma is1_tok k l t r : is1 k l t = true -> terminal k (tlit t) (t :: r) r /\ tlit t = l.
Proof. intros H. destruct (is1_lit _ _ _ H) as [H1 H2]. split; [rewrite H2; apply is1_term, H|exact H2]. Qed.
Lemma good_must1 T0 T k l : front T0 k (B l) -> good T0 T (must1 k l) (gtok k (fun x => x = B l)).
Proof. intros F. apply (good_must T0 T _ _ k _ (B l)); [|reflexivity|exact F]. intros t r H. apply is1_tok, H. Qed.
Lemma good_mustn T0 T k ls l : In l ls -> front T0 k l -> good T0 T (mustn k ls) (gtok k (fun x => In x ls)).
Proof. intros Hl F. apply (good_must T0 T _ _ k _ l); [|exact Hl|exact F]. intros t r H. apply isn_term, H. Qed.
Lemma front_any k l : word_tok (mkTok k l 0 0) = true -> front any k l. Proof. intros H. split; [exact H|]. intros z. exact I. Qed.
Lemma front_tame k l : word_tok (mkTok k l 0 0) = true -> kind_eqb k KName = false -> (is1 KPunct (B "[") (mkTok k l 0 0) || is1 KPunct (B "]") (mkTok k l 0 0)) = false -> front tame k l.
Proof.
  intros Hw H1 H2. split; [exact Hw|]. intros z. apply orb_false_iff in H2. destruct H2 as [H2 H3]. unfold tame, face. cbn. split; [intros ->; discriminate|]. split; intros E; injection E as -> ->; [rewrite is1_self in H2|rewrite is1_self in H3]; discriminate.
Qed.
#[local] Hint Extern 1 (front any _ _) => (apply front_any; reflexivity) : core.
(** a failure at once *)
Lemma good_fail {A} T0 T ws (g : G A) : scr T0 T g -> good T0 T (perr ws) g.
Proof.
  intros (w & a & Sw & H) [|t ts]; [exact I|]. unfold perr, pbind. cbn [tok]. unfold pfail. exists (t :: ts), [], w, a. split; [lh|]. split; [reflexivity|]. split; [intros _ z Hz; apply H, Hz|]. intros z Hz. apply H, Hz.
Qed.
Lemma good_todo {A} T0 T (g : G A) : scr T0 T g -> good T0 T (pbind tok (fun _ => pfail todo)) g.
Proof.
  intros (w & a & Sw & H) [|t ts]; [exact I|]. unfold perr, pbind. cbn [tok]. unfold pfail. exists (t :: ts), [], w, a. split; [lh|]. split; [reflexivity|]. split; [intros _ z Hz; apply H, Hz|]. intros z Hz. apply H, Hz.
Qed.
Lemma good_crash {A} T0 T c (g : G A) : good T0 T (pcrash c) g.
Proof. intros ts. exact I. Qed.
(** ** Decisions on the next token *)
Lemma good_peek {A} T0 T (p : token -> bool) (k : bool -> P A) (g : G A) : (forall b, good T0 T (k b) g) -> good T0 T (pbind (peek p) k) g.
Proof. intros H [|t ts]; [exact I|]. unfold peek, pbind. cbn. apply (H (p t) (t :: ts)). Qed.
(** the token is consumed *)
Lemma good_step {A} (T0 T : cond) t (ts : list token) (p : P A) (g g' : G A) : good any T p g -> (forall x a r, g x a r -> g' (t :: x) a r) ->
  match p ts with
  | POk a r => g' (t :: ts) a r
  | PErr e r => exists s pre w a, lates e s r w /\ t :: ts = pre ++ s /\ (pre = [] -> forall z, T z -> T0 (w ++ z)) /\ forall z, T z -> g' (pre ++ w ++ z) a z
  | PCrash _ => True
  end.
Proof.
  intros H Hg. specialize (H ts). destruct (p ts) as [a r|e r|c]; [apply Hg, H| |exact I]. destruct H as (s & pre & w & a & L & E & H1 & H2). exists s, (t :: pre), w, a.
  split; [exact L|]. split; [cbn; congruence|]. split; [discriminate|]. intros z Hz. apply Hg, H2, Hz.
Qed.
Lemma good_skip {A} T0 T (pr : token -> bool) (p q : P A) (gp g : G A) : good any T p gp -> good T0 T q g -> (forall t x a r, pr t = true -> gp x a r -> g (t :: x) a r) ->
  good T0 T (pbind (skip pr) (fun b => if b then p else q)) g.
Proof.
  intros Hp Hq Hg [|t ts]; [exact I|]. unfold skip, pbind at 1, pbind at 1. cbn [tok]. destruct (pr t) eqn:E; [|apply (Hq (t :: ts))]. unfold pbind at 1. destruct ts as [|t2 ts]; [exact I|]. cbn [advance].
  unfold pret. cbv beta iota. eapply good_step; [exact Hp|]. intros x a r. apply Hg, E.
Qed.
Lemma good_consume {A} T0 T (pr : token -> bool) (p : token -> P A) (k : option token -> P A) (gp : token -> G A) (g : G A) : (forall t, pr t = true -> good any T (p t) (gp t)) -> good T0 T (k None) g ->
  (forall t, k (Some t) = p t) -> (forall t x a r, pr t = true -> gp t x a r -> g (t :: x) a r) ->
  good T0 T (pbind (consume pr) k) g.
Proof.
  intros Hp Hq Hk Hg [|t ts]; [exact I|]. unfold consume, pbind at 1, pbind at 1. cbn [tok]. destruct (pr t) eqn:E; [|apply (Hq (t :: ts))]. unfold pbind at 1. destruct ts as [|t2 ts]; [exact I|]. cbn [advance].
  unfold pret. cbv beta iota. rewrite Hk. eapply good_step; [exact (Hp t E)|]. intros x a r. apply Hg, E.
Qed.

(** ** Loops *)
Lemma fr_cond {A} T T' (g : G A) : fr T g -> sub T' T -> fr T' g.
Proof. intros f S ts a r H. destruct (f _ _ _ H) as (p & E & Hp). exists p. split; [exact E|]. intros z [Hz|Hz]; apply Hp; auto. Qed.
Lemma fr_seq {A C D} T (g : G A) (h : G C) (k : G D) (ts : list token) a r1 b r c : fr T g -> fr T h -> g ts a r1 -> h r1 b r ->
  (forall x y z, g x a y -> h y b z -> k x c z) -> exists p, ts = p ++ r /\ forall z, T z \/ fronts r z -> k (p ++ z) c z.
Proof.
  intros f f' H H' K. destruct (f _ _ _ H) as (p1 & -> & F). destruct (f' _ _ _ H') as (p2 & -> & F'). exists (p1 ++ p2). split; [apply app_assoc|]. intros z Hz. rewrite <- app_assoc.
  eapply K; [apply F|apply F', Hz]. destruct p2 as [|t p2]; [exact Hz|]. right. reflexivity.
Qed.
Lemma fr_many {A} T (g : G A) : fr T g -> fr T (many g).
Proof.
  intros f ts l r H. induction H as [ts|ts a r1 l r H1 H2 (p2 & -> & IH)].
  - exists []. split; [reflexivity|]. intros z _. constructor.
  - destruct (f _ _ _ H1) as (p1 & -> & F). exists (p1 ++ p2). split; [apply app_assoc|]. intros z Hz. rewrite <- app_assoc. econstructor; [|apply IH, Hz]. apply F. destruct p2 as [|t p2]; [exact Hz|]. right. reflexivity.
Qed.
Lemma scr_many {A} T0 T (g : G A) : sub T T0 -> scr T0 T (many g).
Proof. intros S. exists [], []. split; [reflexivity|]. intros z Hz. split; [apply S, Hz|constructor]. Qed.
(** [for peek(c) { body }] *)
Lemma good_cons {A} T0 (body : P A) (loop : P (list A)) g : good T0 any body g -> fr any g -> (forall ts a, ~ g ts a ts) -> good any any loop (many g) ->
  good T0 any (a <- body ;; l <- loop ;; pret (a :: l)) (many g).
Proof.
  intros Hb Hf Hn Hl. eapply good_mono.
  - apply (good_bind T0 any any body _ g (fun a => gbind (many g) (fun l => gret (a :: l)))); [exact Hb|exact Hf|right; exact Hn| |].
    + intros a. apply (good_bind any any any); [exact Hl|apply fr_many, Hf|left; auto| |]; intros l; [apply good_ret|apply scr_ret; auto].
    + intros a. eapply scr_bind; [apply scr_many, sub_refl|]. intros l. apply scr_ret. auto.
  - intros ts l r (a & r1 & H1 & l' & r2 & H2 & E1 & E2). subst. econstructor; eassumption.
Qed.
Lemma good_while {A} T0 n (pr : token -> bool) (body : P A) g : good T0 any body g -> fr any g -> (forall ts a, ~ g ts a ts) -> good T0 any (loop_until n (pnot (peek pr)) body) (many g).
Proof.
  intros Hb Hf Hn. revert T0 Hb. induction n as [|n IH]; intros T0 Hb; [intros ts; exact I|]. cbn [loop_until]. intros [|t ts]; [exact I|]. unfold pnot, peek. unfold pbind at 1 2 3. cbn [tok pret]. unfold pret at 1 2. destruct (negb (pr t)).
  - cbn. constructor.
  - apply (good_cons T0 body (loop_until n (pnot (peek pr)) body) g Hb Hf Hn). apply IH. eapply good_front; [exact Hb|]. auto.
Qed.
(** something and then a closing token *)
Definition closed {A} (c : string) (g : G A) : G A := fun ts l r => exists r1, g ts l r1 /\ pun c r1 r.
Definition closer (c : string) : token := mkTok KPunct (B c) 0 0.
Lemma closer_pun c z : pun c (closer c :: z) z.
Proof. constructor. Qed.
(** [for !skip(c) { body }] *)
Lemma good_until {A} n (c : string) (body : P A) g : front any KPunct (B c) -> good any any body g -> fr any g -> good any any (loop_until n (skip1 KPunct c) body) (closed c (many g)).
Proof.
  intros Fc Hb Hf. induction n as [|n IH]; [intros ts; exact I|]. cbn [loop_until]. eapply (good_skip any any _ (pret []) _ (gret [])); [apply good_ret| |].
  - eapply good_mono.
    + apply (good_bind any any any body _ g (fun a => gbind (closed c (many g)) (fun l => gret (a :: l)))); [exact Hb|exact Hf|left; auto| |].
      * intros a. apply (good_bind any any any); [exact IH| |left; auto|intros l; apply good_ret|intros l; apply scr_ret; auto].
        intros ts l r (r1 & H1 & H2). eapply (fr_seq any (many g) (fun x (_ : unit) y => pun c x y) (closed c (many g)) ts l r1 tt r l); [apply fr_many, Hf| |exact H1|exact H2|intros x y z K1 K2; exists y; auto].
        clear. intros ts a r H. inversion H; subst. eexists [_]. split; [reflexivity|]. intros z _. constructor.
      * intros a. exists [closer c], [a]. split; [apply (front_words _ _ _ Fc)|]. intros z _. split; [exact I|]. exists [], z. split; [|split; reflexivity]. exists (closer c :: z). split; [constructor|constructor].
    + intros ts l r (a & r1 & H1 & l' & r2 & (r3 & H2 & H3) & E1 & E2). subst. exists r3. split; [econstructor; eassumption|exact H3].
  - intros t x a r Hp (-> & ->). exists (t :: x). split; [constructor|]. apply is1_term, Hp.
Qed.
(** [for { body; if fin { break } }; mustConsume(c)], where [fin] only looks *)
Definition peeky (fin : P bool) : Prop := forall ts, match fin ts with POk _ r => r = ts | PErr _ _ => False | PCrash _ => True end.
Lemma peeky_peek p : peeky (peek p).
Proof. intros [|t ts]; [exact I|]. cbn. reflexivity. Qed.
Lemma peeky_close c : peeky (at_close c).
Proof. intros [|t ts]; [exact I|]. unfold at_close, peek1, peek0, peek, pbind. cbn [tok]. unfold pret. destruct (is1 KPunct (B c) t); reflexivity. Qed.
Definition broken_off {A} (c : string) (g : G A) (ts : list token) (e : bytes) (r : list token) : Prop :=
  exists s pre w l, lates e s r w /\ ts = pre ++ s /\ forall z, closed c (many1 g) (pre ++ w ++ z) l z.
Lemma off_first {A} (T : cond) (c : string) (g : G A) s pre w a r e : lates e s r w -> (forall z, T z -> g (pre ++ w ++ z) a z) -> front T KPunct (B c) -> broken_off c g (pre ++ s) e r.
Proof.
  intros [L Lw] H F. exists s, pre, (w ++ [closer c]), [a]. split; [split; [exact L|apply words_app; [exact Lw|apply (front_words _ _ _ F)]]|]. split; [reflexivity|]. intros z. exists (closer c :: z). split; [|constructor]. split; [|discriminate].
  rewrite <- app_assoc. econstructor; [apply H, F|constructor].
Qed.
Lemma off_next {A} (T : cond) (c : string) (g : G A) ts a r1 e r : fr T g -> front T KPunct (B c) -> g ts a r1 -> broken_off c g r1 e r -> broken_off c g ts e r.
Proof.
  intros Hf F Hg (s & pre & w & l & L & E & H). destruct (Hf _ _ _ Hg) as (p & -> & Hp). destruct pre as [|t pre].
  - exists s, p, [closer c], [a]. split; [split; [apply L|apply (front_words _ _ _ F)]|]. split; [cbn in E; congruence|]. intros z. exists (closer c :: z). split; [|constructor]. split; [|discriminate]. econstructor; [apply Hp; left; apply F|constructor].
  - exists s, (p ++ t :: pre), w, (a :: l). split; [exact L|]. split; [rewrite <- app_assoc; cbn in *; congruence|]. intros z. destruct (H z) as (r3 & [K1 _] & K2). exists r3. split; [|exact K2]. split; [|discriminate].
    rewrite <- app_assoc. econstructor; [|exact K1]. apply Hp. right. rewrite E. reflexivity.
Qed.
Lemma do_peeks {A} (T : cond) n (c : string) (body : P A) fin g : good any T body g -> fr T g -> front T KPunct (B c) -> peeky fin -> forall ts,
  match do_loop n body fin ts with POk l r => many1 g ts l r | PErr e r => broken_off c g ts e r | PCrash _ => True end.
Proof.
  intros Hb Hf F Hfin. induction n as [|n IH]; intros ts; [exact I|]. cbn [do_loop]. unfold pbind. specialize (Hb ts). destruct (body ts) as [a r1|e r1|c1]; [| |exact I].
  - specialize (Hfin r1). destruct (fin r1) as [b r2|e r2|c2]; [|contradiction|exact I]. subst r2. destruct b; [split; [econstructor; [exact Hb|constructor]|discriminate]|].
    specialize (IH r1). destruct (do_loop n body fin r1) as [l r|e r|c2]; [|eapply off_next; eassumption|exact I]. destruct IH as [IH _]. split; [econstructor; eassumption|discriminate].
  - destruct Hb as (s & pre & w & a & L & -> & _ & H). eapply off_first; eassumption.
Qed.
Lemma good_do {A} (T : cond) n (c : string) (body : P A) fin g : good any T body g -> fr T g -> front T KPunct (B c) -> peeky fin ->
  good any any (l <- do_loop n body fin ;; must1 KPunct c ;;; pret l) (closed c (many1 g)).
Proof.
  intros Hb Hf F Hfin ts. unfold pbind at 1. pose proof (do_peeks T n c body fin g Hb Hf F Hfin ts) as H. destruct (do_loop n body fin ts) as [l r|e r|c1]; [| |exact I].
  - destruct r as [|t r]; [exact I|]. unfold pbind, must1, must, pbind. cbn [tok]. destruct (is1 KPunct (B c) t) eqn:E.
    + destruct r as [|t2 r]; [exact I|]. cbn. exists (t :: t2 :: r). split; [exact H|apply is1_term, E].
    + unfold pfail. destruct H as [H Hn]. destruct (fr_many T g Hf _ _ _ H) as (p & -> & Hp). exists (t :: r), p, [closer c], l. split; [lh; apply (front_words _ _ _ F)|]. split; [reflexivity|]. split; [intros _ z _; exact I|].
      intros z _. exists (closer c :: z). split; [|constructor]. split; [apply Hp; left; apply F|exact Hn].
  - destruct H as (s & pre & w & l & L & E & H). exists s, pre, w, l. split; [exact L|]. split; [exact E|]. split; [intros _ z _; exact I|]. intros z _; apply H.
Qed.
Lemma skip_at pr t ts : skip pr (t :: ts) = if pr t then match ts with [] => PCrash Over | _ => POk true ts end else POk false (t :: ts).
Proof. unfold skip, pbind. cbn [tok]. destruct (pr t); [|reflexivity]. destruct ts; reflexivity. Qed.
(** [for { body; if skip(c) { break } }] *)
Lemma good_do_skip {A} (T : cond) n (c : string) (body : P A) g : good any T body g -> fr T g -> front T KPunct (B c) ->
  good any any (do_loop n body (skip1 KPunct c)) (closed c (many1 g)).
Proof.
  intros Hb Hf F. assert (H : forall ts, match do_loop n body (skip1 KPunct c) ts with POk l r => closed c (many1 g) ts l r | PErr e r => broken_off c g ts e r | PCrash _ => True end).
  { induction n as [|n IH]; intros ts; [exact I|]. cbn [do_loop]. unfold pbind. specialize (Hb ts). destruct (body ts) as [a r1|e r1|c1]; [| |exact I].
    - destruct r1 as [|t r1]; [exact I|]. replace (skip1 KPunct c (t :: r1)) with (skip (is1 KPunct (B c)) (t :: r1)) by reflexivity. rewrite skip_at. destruct (is1 KPunct (B c) t) eqn:E.
      + destruct r1 as [|t2 r1]; [exact I|]. exists (t :: t2 :: r1). split; [split; [econstructor; [exact Hb|constructor]|discriminate]|apply is1_term, E].
      + specialize (IH (t :: r1)). destruct (do_loop n body (skip1 KPunct c) (t :: r1)) as [l r|e r|c2]; [|eapply off_next; eassumption|exact I].
        destruct IH as (r3 & [IH _] & IH2). exists r3. split; [|exact IH2]. split; [econstructor; eassumption|discriminate].
    - destruct Hb as (s & pre & w & a & L & -> & _ & H). eapply off_first; eassumption. }
  intros ts. specialize (H ts). destruct (do_loop n body (skip1 KPunct c) ts) as [l r|e r|c1]; [exact H| |exact I]. destruct H as (s & pre & w & l & L & E & H). exists s, pre, w, l. split; [exact L|]. split; [exact E|]. split; [intros _ z _; exact I|]. intros z _; apply H.
Qed.
(** [for { body; if !skip(sep) { break } }] *)
Lemma good_sep {A} (T : cond) n sp (body : P A) g : good any any body g -> fr T g -> good any any (do_loop n body (pnot (skip1 KPunct sp))) (sep1 sp g).
Proof.
  intros Hb Hf. induction n as [|n IH]; intros ts; [exact I|]. cbn [do_loop]. unfold pbind at 1. specialize (Hb ts). destruct (body ts) as [a r1|e r1|c1]; [| |exact I].
  - destruct r1 as [|t r1]; [exact I|]. assert (Es : pnot (skip1 KPunct sp) (t :: r1) = match skip (is1 KPunct (B sp)) (t :: r1) with POk a r => POk (negb a) r | PErr e r => PErr e r | PCrash c => PCrash c end) by reflexivity.
    rewrite skip_at in Es. unfold pbind. rewrite Es. destruct (is1 KPunct (B sp) t) eqn:E.
    + destruct r1 as [|t2 r1]; [exact I|]. cbn [negb]. specialize (IH (t2 :: r1)). destruct (do_loop n body (pnot (skip1 KPunct sp)) (t2 :: r1)) as [l r|e r|c2]; [| |exact I].
      * eapply sep_more; [exact Hb|apply is1_term, E|exact IH].
      * destruct IH as (s & pre & w & l & L & E2 & _ & H). destruct (Hf _ _ _ Hb) as (p & -> & Hp). exists s, (p ++ t :: pre), w, (a :: l). split; [exact L|]. split; [rewrite <- app_assoc; cbn; congruence|].
        split; [intros _ z _; exact I|]. intros z _. rewrite <- app_assoc. eapply sep_more; [apply Hp; right; reflexivity|apply is1_term, E|apply H; exact I].
    + cbn [negb]. constructor. exact Hb.
  - destruct Hb as (s & pre & w & a & L & E & _ & H). exists s, pre, w, [a]. split; [exact L|]. split; [exact E|]. split; [intros _ z _; exact I|]. intros z _. constructor. apply H. exact I.
Qed.
