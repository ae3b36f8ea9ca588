(** * ParserViable3: [good] for definitions and documents. *)
From Verif Require Import Base Utf8 Lexer AST Parser Grammar GrammarProps GrammarFrame ParserWp ParserSound ParserLocal ParserComplete ParserViable ParserViable2.
Local Open Scope p_scope.
#[local] Hint Resolve sub_any sub_refl any_lenient le_lenient : core.
#[local] Hint Extern 1 (front any _ _) => (apply front_any; reflexivity) : core.
Lemma front_tame' l : word_tok (mkTok KPunct (B l) 0 0) = true -> (is1 KPunct (B "[") (mkTok KPunct (B l) 0 0) || is1 KPunct (B "]") (mkTok KPunct (B l) 0 0)) = false -> front tame KPunct (B l).
Proof. intros Hw H. apply front_tame; [exact Hw|reflexivity|exact H]. Qed.
#[local] Hint Extern 1 (front tame KPunct (B _)) => (apply front_tame'; reflexivity) : core.

Lemma good_bind_R {A C} (T0 T1 T : cond) (R : A -> Prop) (m : P A) (k : A -> P C) (g : G A) (gk : A -> G C) : (forall ts a r, g ts a r -> R a) -> T1 [] ->
  good T0 T1 m g -> fr T1 g -> (sub T1 T0 \/ forall ts a, ~ g ts a ts) -> (forall a, R a -> good T1 T (k a) (gk a)) -> (forall a, R a -> scr T1 T (gk a)) ->
  good T0 T (pbind m k) (gbind g gk).
Proof.
  intros HR H0 Hm Hf Hn Hk Hs ts. unfold pbind. specialize (Hm ts). destruct (m ts) as [a r|e r|c]; [| |exact I].
  - specialize (Hk a (HR _ _ _ Hm) r). destruct (k a r) as [b r2|e r2|c]; [exists a, r; auto| |exact I].
    destruct Hk as (s & pre & w & b & L & E & H1 & H2). destruct (Hf _ _ _ Hm) as (p & Ep & Hp). exists s, (p ++ pre), w, b.
    assert (Hc : forall z, T z -> T1 (pre ++ w ++ z) \/ fronts r (pre ++ w ++ z)).
    { intros z Hz. destruct pre as [|t pre]; [left; apply (H1 eq_refl z Hz)|right; rewrite E; apply fronts_app; discriminate]. }
    split; [exact L|]. split; [rewrite <- app_assoc; congruence|]. split.
    + intros Epp z Hz. apply app_eq_nil in Epp. destruct Epp as [-> ->]. destruct Hn as [S|N]; [apply S, (H1 eq_refl z Hz)|]. exfalso. cbn in Ep, E. subst r ts. exact (N _ _ Hm).
    + intros z Hz. exists a, (pre ++ w ++ z). rewrite <- app_assoc. split; [apply Hp, Hc, Hz|apply H2, Hz].
  - destruct Hm as (s & pre & w & a & L & E & H1 & H2). destruct (Hs a (HR _ _ _ (H2 _ H0))) as (w2 & b & Sw & Hw). exists s, pre, (w ++ w2), b. split; [destruct L as [L Lw]; split; [exact L|apply words_app; assumption]|]. split; [exact E|]. split.
    + intros Ep z Hz. rewrite <- app_assoc. apply (H1 Ep). apply Hw, Hz.
    + intros z Hz. destruct (Hw z Hz) as [K1 K2]. exists a, (w2 ++ z). rewrite <- app_assoc. split; [apply H2, K1|exact K2].
Qed.
Lemma good_must_k {A} T0 T pr wn (k : token -> P A) (gp : token -> G A) (g : G A) :
  (forall t, pr t = true -> good any T (k t) (gp t)) -> scr T0 T g -> (forall t x a r, pr t = true -> gp t x a r -> g (t :: x) a r) -> good T0 T (pbind (must pr wn) k) g.
Proof.
  intros Hp (w & a0 & Sw & Hs) Hg [|t ts]; [exact I|]. unfold must, pbind at 1, pbind at 1. cbn [tok]. destruct (pr t) eqn:E.
  - unfold pbind at 1. destruct ts as [|t2 ts]; [exact I|]. cbn [advance]. unfold pret. cbv beta iota. eapply good_step; [exact (Hp t E)|]. intros x a r. apply Hg, E.
  - unfold pfail. exists (t :: ts), [], w, a0. split; [lh|]. split; [reflexivity|]. split; intros; apply Hs; assumption.
Qed.
Lemma fr_many1 {A} T (g : G A) : fr T g -> fr T (many1 g).
Proof. intros f ts l r [H Hn]. destruct (fr_many T g f _ _ _ H) as (p & E & Hp). exists p. split; [exact E|]. intros z Hz. split; [apply Hp, Hz|exact Hn]. Qed.
Lemma fr_sep {A} T sp (g : G A) : fr T g -> fr T (sep1 sp g).
Proof.
  intros f ts l r H. induction H as [ts a r H|ts a r1 r2 l r H1 H2 H3 (p2 & -> & IH)].
  - destruct (f _ _ _ H) as (p & -> & Hp). exists p. split; [reflexivity|]. intros z Hz. constructor. apply Hp, Hz.
  - destruct (f _ _ _ H1) as (p1 & -> & Hp). inversion H2; subst. exists (p1 ++ mkTok KPunct (B sp) l0 c :: p2). split; [rewrite <- app_assoc; reflexivity|]. intros z Hz. rewrite <- app_assoc. eapply sep_more; [apply Hp; right; reflexivity|constructor|apply IH, Hz].
Qed.
Lemma fr_ret {A} T (a : A) : fr T (gret a).
Proof. intros ts b r (-> & ->). exists []. split; [reflexivity|]. intros z _. split; reflexivity. Qed.
Lemma fr_free {A} (g : G A) : (forall lv, frame lv g) -> fr any g.
Proof. intros f ts a r H. destruct (f Lenient _ _ _ H) as (p & E & Hp). exists p. split; [exact E|]. intros z _. apply Hp; [reflexivity|discriminate]. Qed.
Lemma good_do_ {A} (T T0 : cond) n (c o : string) (body : P A) fin g (G0 : G (list A)) : good any T body g -> fr T g -> front T KPunct (B c) -> peeky fin ->
  (forall ts, G0 ts [] ts) -> (forall ts r1 l r2 r, pun o ts r1 -> many1 g r1 l r2 -> pun c r2 r -> G0 ts l r) ->
  good T0 any (b <- skip1 KPunct o ;; if b then l <- do_loop n body fin ;; must1 KPunct c ;;; pret l else pret []) G0.
Proof.
  intros Hb Hf F Hfin H0 H1. unfold skip1 at 1. eapply (good_skip T0 any); [eapply good_do; eassumption| |].
  - eapply good_mono; [apply good_ret|]. intros ts a r (-> & ->). apply H0.
  - intros t x a r E (r1 & K1 & K2). eapply H1; [apply is1_term, E|exact K1|exact K2].
Qed.
Lemma scr_nil {A} T0 (g : G A) a : (forall ts, g ts a ts) -> scr T0 T0 g.
Proof. intros H. exists [], a. split; [reflexivity|]. intros z Hz. split; [exact Hz|apply H]. Qed.
(** what follows an optional token *)
Definition g_consumed (k : kind) : G (option token) := fun ts o r => match o with None => r = ts | Some t => ts = t :: r /\ terminal k (tlit t) ts r end.
Lemma good_consume0 T0 T k : good T0 T (consume0 k) (g_consumed k).
Proof. intros [|t ts]; [exact I|]. unfold consume0, consume, pbind. cbn [tok]. destruct (is0 k t) eqn:E; [|reflexivity]. destruct ts as [|t2 ts]; [exact I|]. cbn. split; [reflexivity|apply is0_term, E]. Qed.
Lemma fr_consumed k : fr any (g_consumed k).
Proof. intros ts [t|] r; cbn; [intros (-> & H)|intros ->]; [exists [t]|exists []]; (split; [reflexivity|]); intros z _; cbn; [|reflexivity]. split; [reflexivity|]. inversion H; subst. constructor. Qed.
Lemma scr_consumed T0 k : scr T0 T0 (g_consumed k). Proof. apply (scr_nil _ _ None). reflexivity. Qed.
Definition g_maybe (s : string) : G bool := fun ts _ r => maybe s ts r.
Lemma good_maybe T0 T s : good T0 T (skip1 KPunct s) (g_maybe s).
Proof. intros [|t ts]; [exact I|]. unfold skip1. rewrite skip_at. destruct (is1 KPunct (B s) t) eqn:E; [|left; reflexivity]. destruct ts; [exact I|]. right. apply is1_term, E. Qed.
Lemma fr_maybe s : fr any (g_maybe s).
Proof. apply fr_free. intros lv ts a r H. apply Fr_maybe, H. Qed.
Lemma scr_maybe T0 s : scr T0 T0 (g_maybe s). Proof. apply (scr_nil _ _ true). left. reflexivity. Qed.
Lemma good_desc T0 T : good T0 T parse_desc g_desc.
Proof.
  intros ts. unfold parse_desc, pbind. pose proof (good_consume0 T0 T KString ts) as H. destruct (consume0 KString ts) as [o r|e r|c] eqn:E; [|exfalso|exact I].
  - destruct o as [t|]; cbn in *; [destruct H as (-> & H); constructor; exact H|subst; constructor].
  - destruct ts as [|t ts]; [discriminate|]. unfold consume0, consume, pbind in E. cbn [tok] in E. destruct (is0 KString t); [destruct ts|]; discriminate.
Qed.
Lemma fr_desc : fr any g_desc. Proof. apply fr_free, g_desc_frame. Qed.
Lemma scr_desc T0 : scr T0 T0 g_desc. Proof. apply (scr_nil _ _ []). constructor. Qed.

Section Viable.
Variable fok : bytes -> bool.
Ltac gt := apply good_must1; solve [auto].
Ltac gn := apply (good_must0 _ _ _ (B "a")); solve [auto].
Ltac gr := first [apply good_ret|apply scr_ret; solve [auto]].
(** a construct can be invented: [sc] *)
Ltac sc := repeat (cbv beta; first
  [ apply scr_ret; solve [auto]
  | apply scr_type | apply scr_named | apply scr_gcond | apply scr_dirs | apply scr_default | apply scr_args | apply scr_consumed | apply scr_maybe | apply scr_desc
  | apply scr_selset; solve [auto] | apply scr_need; solve [auto]
  | eapply (scr_tok _ _ KName _ (B "a")); [exact I|solve [auto]]
  | eapply scr_tok; [reflexivity|solve [auto]]
  | match goal with |- scr _ _ (gbind (gtok _ _) _) => eapply (scr_bind _ any _); [|intros ?] end
  | match goal with |- scr _ _ (gbind (gbind (gtok _ _) _) _) => eapply (scr_bind _ any _); [|intros ?] end
  | match goal with |- scr _ _ (gbind (g_type _) _) => eapply (scr_bind _ any _); [|intros ?] end
  | match goal with |- scr _ _ (gbind (g_named _) _) => eapply (scr_bind _ any _); [|intros ?] end
  | match goal with |- scr _ _ (gbind (g_cond _) _) => eapply (scr_bind _ any _); [|intros ?] end
  | match goal with |- scr _ _ (gbind (g_selset _ _) _) => eapply (scr_bind _ any _); [|intros ?] end
  | match goal with |- scr ?T0 _ (gbind _ _) => eapply (scr_bind T0 T0 _); [|intros ?] end ]).
Ltac gtype := eapply good_cond; [apply good_type|solve [auto]|solve [auto]].
Ltac gdirs c := match goal with |- good ?T0 _ _ _ => eapply (good_cond T0 any) end; [apply (good_dirs fok _ _ c); solve [auto]|solve [auto]|solve [auto]].
Ltac gdef := match goal with |- good ?T0 _ _ _ => eapply (good_cond T0 any) end; [apply good_default|solve [auto]|solve [auto]].
Lemma fr_dirs_tame c l : fr tame (g_dirs fok Any c l). Proof. eapply fr_cond; [apply fr_dirs|auto]. Qed.
Lemma fr_default_tame : fr tame (g_default fok Any). Proof. eapply fr_cond; [apply fr_default|auto]. Qed.

Lemma selset_eats ts a : ~ g_selset fok Any ts a ts.
Proof.
  intros H. inversion H; subst. inversion H0; subst. inversion H3; subst. destruct (many_suffix _ (g_sel_suffix fok Any) _ _ _ H1) as (p & E). apply (f_equal (@List.length token)) in E. rewrite app_length in E. cbn in E. lia.
Qed.
Ltac gb T1 := match goal with |- good ?T0 ?T _ _ => eapply (good_bind T0 T1 T); [| |first [left; solve [auto]|right; first [apply tok_eats|apply need_eats|apply selset_eats]]|intros ?|intros ?] end.
(** ** Operations *)
Lemma good_vardef n : good any tame (parse_vardef fok n) (g_vardef fok Any).
Proof.
  unfold parse_vardef. eapply good_mono.
  - gb any; [gt|apply fr_tok| |]. gb any; [gn|apply fr_tok| |]. gb any; [gt|apply fr_tok| |].
    gb tame; [gtype|apply fr_type| |]. gb tame; [gdef|apply fr_default_tame|gr|gr]. all: sc.
  - intros ts a r H. un. econstructor; eassumption.
Qed.
Lemma good_vardefs T0 n : good T0 any (parse_vardefs fok n) (g_vardefs fok Any).
Proof. apply (good_do_ tame T0 n ")" "(" (parse_vardef fok n) _ (g_vardef fok Any)); [apply good_vardef|apply fr_of_frame, g_vardef_frame|auto|apply peeky_peek|intros; constructor|intros; econstructor; eassumption]. Qed.
Lemma scr_vardefs T0 : scr T0 T0 (g_vardefs fok Any). Proof. apply (scr_nil _ _ []). constructor. Qed.
Lemma good_opkind : good any any parse_optype g_opkind.
Proof.
  unfold parse_optype. eapply good_mono.
  - gb any; [apply (good_mustn _ _ _ _ (B "query")); [left; reflexivity|auto]|apply fr_tok|gr|gr].
  - intros ts a r H. un. match goal with H : In _ _ |- _ => destruct H as [E|[E|[E|[]]]]; rewrite <- E in * end; [apply ok_query|apply ok_mutation|apply ok_subscription]; assumption.
Qed.

Lemma fr_opkind : fr any g_opkind. Proof. apply fr_free, g_opkind_frame. Qed.
Lemma scr_opkind T : scr any T g_opkind.
Proof. exists [mkTok KName (B "query") 0 0], Query. split; [reflexivity|]. intros z _. split; [exact I|]. apply ok_query. constructor. Qed.
Ltac sc1 := repeat (cbv beta; first
  [ progress sc | apply scr_opkind | apply scr_vardefs
  | match goal with |- scr _ _ (gbind g_opkind _) => eapply (scr_bind _ any _); [|intros ?] end ]).
Lemma good_shorthand n : good any any (parse_operation fok n true) (fun ts b r => exists o, b = DOp o /\ g_op fok Any ts o r).
Proof.
  cbn [parse_operation]. eapply good_mono.
  - gb any; [apply (good_selset fok n); auto|apply fr_selset|gr|gr].
  - intros ts a r H. un. eexists. split; [reflexivity|]. apply op_short. assumption.
Qed.
Lemma good_operation n : good any any (parse_operation fok n false) (fun ts b r => exists o, b = DOp o /\ g_op fok Any ts o r).
Proof.
  cbn [parse_operation]. eapply good_mono.
  - gb any; [apply good_opkind|apply fr_opkind| |]. gb any; [apply (good_consume0 any any)|apply fr_consumed| |]. gb tame; [eapply good_cond; [apply good_vardefs|auto|auto]|apply fr_of_frame, g_vardefs_frame| |].
    gb tame; [gdirs false|apply fr_dirs_tame| |]. gb any; [apply (good_selset fok n); auto|apply fr_selset|gr|gr].
    all: sc1.
  - intros ts a r H. un. eexists. split; [reflexivity|]. eapply op_long; try eassumption. match goal with H : g_consumed _ _ ?o _ |- _ => destruct o; cbn in H; [destruct H as [-> H]; constructor; exact H|subst; constructor] end.
Qed.
(** ** Fragments *)
Definition parse_fragment' (n : nat) : P body := o <- parse_fragment fok n ;; match o with Some b => pret b | None => pcrash NilDeref end.
Definition fragment_rest (n : nat) (t : token) : P body :=
  c <- parse_type_condition n ;; ds <- parse_directives fok n LFragmentDefinition ;; ss <- parse_selset fok n false ;; pret (DFrag (mkFrag (tlit t) c ds ss)).
Definition g_rest (t : token) : G body := fun ts b r => exists c r1 ds r2 ss, g_cond Any ts c r1 /\ g_dirs fok Any false LFragmentDefinition r1 ds r2 /\ g_selset fok Any r2 ss r /\ b = DFrag (mkFrag (tlit t) c ds ss).
Lemma good_fragment_rest n t : good any any (fragment_rest n t) (g_rest t).
Proof.
  unfold fragment_rest. eapply good_mono.
  - gb any; [apply good_cond'|apply fr_gcond| |]. gb any; [gdirs false|apply fr_dirs| |]. gb any; [apply (good_selset fok n); auto|apply fr_selset|gr|gr]. all: sc1.
  - intros ts a r H. un. do 5 eexists. repeat (split; [eassumption|]). reflexivity.
Qed.
Lemma scr_rest t : scr any any (g_rest t).
Proof.
  eapply scr_mono; [eapply (scr_bind any any); [apply scr_gcond|intros c; eapply (scr_bind any any); [apply (scr_dirs fok any false LFragmentDefinition)|intros ds; eapply (scr_bind any any); [apply (scr_selset fok); auto|intros ss; apply (scr_ret any any (DFrag (mkFrag (tlit t) c ds ss))); auto]]]|].
  intros ts a r H. un. do 5 eexists. repeat (split; [eassumption|]). reflexivity.
Qed.
Lemma good_consume_bad {A} T0 T (pr bad : token -> bool) (k : option token -> P A) (gp : token -> G A) (g : G A) :
  (forall t, pr t = true -> bad t = false -> good any T (k (Some t)) (gp t)) -> (forall t ts, pr t = true -> bad t = true -> match k (Some t) ts with PErr e r => late e (t :: ts) r | POk _ _ => False | PCrash _ => True end) ->
  good T0 T (k None) g -> scr T0 T g -> (forall t x a r, pr t = true -> bad t = false -> gp t x a r -> g (t :: x) a r) -> good T0 T (pbind (consume pr) k) g.
Proof.
  intros Hp Hb Hq (w & a0 & Sw & Hs) Hg [|t ts]; [exact I|]. unfold consume, pbind at 1, pbind at 1. cbn [tok]. destruct (pr t) eqn:E; [|apply (Hq (t :: ts))]. unfold pbind at 1. destruct ts as [|t2 ts]; [exact I|]. cbn [advance].
  unfold pret. cbv beta iota. destruct (bad t) eqn:Eb.
  - specialize (Hb t (t2 :: ts) E Eb). destruct (k (Some t) (t2 :: ts)) as [a r|e r|c]; [contradiction| |exact I].
    exists (t :: t2 :: ts), [], w, a0. split; [split; [exact Hb|exact Sw]|]. split; [reflexivity|]. split; intros; apply Hs; assumption.
  - eapply good_step; [exact (Hp t E Eb)|]. intros x a r. apply Hg; assumption.
Qed.
Lemma good_fragment n : good any any (parse_fragment' n) (fun ts b r => exists f, b = DFrag f /\ g_frag fok Any ts f r).
Proof.
  apply (good_ext _ _ _ (b <- skip1 KName "fragment" ;; if b then o <- consume0 KName ;; match o with None => pcrash NilDeref | Some t => if beqb (tlit t) (B "on") then perr [want KName "!on"] else fragment_rest n t end else pcrash NilDeref)).
  { intros ts. unfold parse_fragment', parse_fragment, fragment_rest, perr, pbind. destruct (skip1 KName "fragment" ts) as [b r|e r|c]; [|reflexivity|reflexivity]. destruct b; [|reflexivity]. cbn [negb]. destruct (consume0 KName r) as [[t|] r2|e r2|c]; try reflexivity.
    destruct (beqb (tlit t) (B "on")); [destruct r2; reflexivity|]. destruct (parse_type_condition n r2) as [c r3|e r3|c]; [|reflexivity|reflexivity]. destruct (parse_directives fok n LFragmentDefinition r3) as [ds r4|e r4|c']; [|reflexivity|reflexivity].
    destruct (parse_selset fok n false r4); reflexivity. }
  unfold skip1. eapply (good_skip any any _ _ _ (fun ts b r => exists t r1, ts = t :: r1 /\ name (tlit t) ts r1 /\ tlit t <> B "on" /\ g_rest t r1 b r)); [|apply good_crash|].
  - unfold consume0. apply (good_consume_bad any any (is0 KName) (fun t => beqb (tlit t) (B "on")) _ g_rest).
    + intros t E1 E2. rewrite E2. apply good_fragment_rest.
    + intros t [|u ts] E1 E2; rewrite E2; [exact I|]. unfold perr, pbind. cbn [tok]. unfold pfail. apply late_on; [apply kind_eqb_true, E1|apply beqb_true, E2|reflexivity].
    + apply good_crash.
    + destruct (scr_rest at_name) as (w & b & Sw & Hw). exists (at_name :: w), b. split; [exact Sw|]. intros z Hz. split; [exact I|]. exists at_name, (w ++ z). split; [reflexivity|]. split; [constructor|]. split; [discriminate|]. apply Hw, Hz.
    + intros t x a r E1 E2 H. exists t, x. split; [reflexivity|]. split; [apply is0_term, E1|]. split; [|exact H]. intros E. rewrite E in E2. discriminate.
  - intros t x a r E (u & r1 & -> & H1 & H2 & c & r2 & ds & r3 & ss & H3 & H4 & H5 & ->). eexists. split; [reflexivity|]. econstructor; try eassumption. apply is1_term, E.
Qed.

(** ** Type system definitions *)
Ltac gneed := apply good_need; solve [auto].
Lemma good_ivdef n l : good any tame (parse_ivdef fok n l) (g_ivdef fok Any l).
Proof.
  unfold parse_ivdef. eapply good_mono.
  - gb any; [apply good_desc|apply fr_desc| |]. gb any; [gn|apply fr_tok| |]. gb any; [gneed|apply fr_need| |]. gb tame; [gtype|apply fr_type| |]. gb tame; [gdef|apply fr_default_tame| |].
    gb tame; [gdirs true|apply fr_dirs_tame|gr|gr]. all: sc1.
  - intros ts a r H. un. econstructor; eassumption.
Qed.
Lemma good_argdefs T0 n : good T0 any (parse_argdefs fok n) (g_argdefs fok Any).
Proof. apply (good_do_ tame T0 n ")" "(" (parse_ivdef fok n LArgumentDefinition) _ (g_ivdef fok Any LArgumentDefinition)); [apply good_ivdef|apply fr_of_frame, g_ivdef_frame|auto|apply peeky_close|intros; constructor|intros; econstructor; eassumption]. Qed.
Lemma scr_argdefs T0 : scr T0 T0 (g_argdefs fok Any). Proof. apply (scr_nil _ _ []). constructor. Qed.
Lemma fr_argdefs : fr any (g_argdefs fok Any).
Proof.
  intros ts a r H. inversion H; subst; [exists []; split; [reflexivity|]; intros z _; constructor|]. inversion H0; subst. assert (K : closed ")" (many1 (g_ivdef fok Any LArgumentDefinition)) r1 a r) by (exists r2; auto).
  destruct (fr_closed tame ")" _ (fr_many1 _ _ (fr_of_frame _ (g_ivdef_frame Any fok LArgumentDefinition))) _ _ _ K) as (p & -> & Hp). exists (mkTok KPunct (B "(") l c :: p). split; [reflexivity|]. intros z Hz. destruct (Hp z Hz) as (r3 & K1 & K2). eapply ad_some; [constructor|exact K1|exact K2].
Qed.
Ltac sc2 := repeat (cbv beta; first [ progress sc1 | apply scr_argdefs ]).
Lemma good_fielddef n : good any tame (parse_fielddef fok n) (g_fielddef fok Any).
Proof.
  unfold parse_fielddef. eapply good_mono.
  - gb any; [apply good_desc|apply fr_desc| |]. gb any; [gn|apply fr_tok| |]. gb any; [apply good_argdefs|apply fr_argdefs| |]. gb any; [gneed|apply fr_need| |]. gb tame; [gtype|apply fr_type| |].
    gb tame; [gdirs true|apply fr_dirs_tame|gr|gr]. all: sc2.
  - intros ts a r H. un. econstructor; eassumption.
Qed.
Definition enum_ok (x : bytes) : Prop := ~ In x [B "false"; B "true"; B "null"].
Lemma inb_In' x l : inb x l = true <-> In x l.
Proof. unfold inb. rewrite existsb_exists. split; [intros (y & H1 & H2)|intros H]; [apply beqb_true in H2; subst; exact H1|exists x; split; [exact H|apply beqb_refl]]. Qed.
Lemma good_enum_name T : good any T (t <- must0 KName ;; if inb (tlit t) [B "false"; B "true"; B "null"] then pfail (unexpected t [want KName "valid enum value"]) else pret t) (gtok KName enum_ok).
Proof.
  intros [|t ts]; [exact I|]. unfold must0, must, pbind. cbn [tok]. destruct (is0 KName t) eqn:E.
  - destruct ts as [|t2 ts]; [exact I|]. cbn [advance]. unfold pret at 1. cbv iota. destruct (inb (tlit t) [B "false"; B "true"; B "null"]) eqn:E2.
    + apply inb_In' in E2. unfold pfail. exists (t :: t2 :: ts), [], [at_name], at_name. split; [split; [apply late_enum; [apply kind_eqb_true, E|exact E2|reflexivity]|reflexivity]|]. split; [reflexivity|]. split; [intros _ z _; exact I|].
      intros z _. split; [reflexivity|]. split; [constructor|]. intros [H|[H|[H|[]]]]; discriminate.
    + split; [reflexivity|]. split; [apply is0_term, E|]. intros H. apply inb_In' in H. congruence.
  - unfold pfail. exists (t :: ts), [], [at_name], at_name. split; [lh|]. split; [reflexivity|]. split; [intros _ z _; exact I|]. intros z _. split; [reflexivity|]. split; [constructor|]. intros [H|[H|[H|[]]]]; discriminate.
Qed.
Lemma good_enumval n : good any any (parse_enumval fok n) (g_enumval fok Any).
Proof.
  apply (good_ext _ _ _ (d <- parse_desc ;; t <- (t <- must0 KName ;; if inb (tlit t) [B "false"; B "true"; B "null"] then pfail (unexpected t [want KName "valid enum value"]) else pret t) ;; ds <- parse_directives fok n LEnumValue ;; pret (mkEv d (tlit t) ds))).
  { intros ts. unfold parse_enumval, pbind. destruct (parse_desc ts) as [d r|e r|c]; [|reflexivity|reflexivity]. destruct (must0 KName r) as [t r2|e r2|c]; [|reflexivity|reflexivity]. destruct (inb (tlit t) [B "false"; B "true"; B "null"]); reflexivity. }
  eapply good_mono.
  - gb any; [apply good_desc|apply fr_desc| |]. gb any; [apply good_enum_name|apply fr_tok| |]. gb any; [gdirs true|apply fr_dirs|gr|gr]. { sc2. }
    eapply (scr_bind _ any); [eapply (scr_tok _ _ _ _ (B "a")); [intros [H|[H|[H|[]]]]; discriminate|auto]|]. intros t. sc2.
  - intros ts a r H. un. match goal with H : enum_ok _ |- _ => unfold enum_ok in H; cbn in H end. econstructor; try eassumption; intros E; match goal with H : ~ _ |- _ => apply H; rewrite E; auto end.
Qed.
Lemma good_block {A} T0 n (body : P A) g : good any tame body g -> fr tame g -> good T0 any (b <- skip1 KPunct "{" ;; if b then do_loop n body (skip1 KPunct "}") else pret []) (g_block g).
Proof.
  intros Hb Hf. unfold skip1 at 1. eapply (good_skip T0 any); [apply (good_do_skip tame); [exact Hb|exact Hf|auto]| |].
  - eapply good_mono; [apply good_ret|]. intros ts a r (-> & ->). constructor.
  - intros t x a r E (r1 & K1 & K2). eapply bl_some; [apply is1_term, E|exact K1|exact K2].
Qed.
Lemma scr_block {A} T0 (g : G A) : scr T0 T0 (g_block g). Proof. apply (scr_nil _ _ []). constructor. Qed.
Lemma good_fielddefs T0 n : good T0 any (parse_fielddefs fok n) (g_block (g_fielddef fok Any)).
Proof. apply good_block; [apply good_fielddef|apply fr_of_frame, g_fielddef_frame]. Qed.
Lemma good_enumvals T0 n : good T0 any (parse_enumvals fok n) (g_block (g_enumval fok Any)).
Proof. apply good_block; [eapply good_cond; [apply good_enumval|auto|auto]|apply fr_of_frame, g_enumval_frame]. Qed.
Lemma good_inputs T0 n : good T0 any (parse_inputs fok n) (g_block (g_ivdef fok Any LInputFieldDefinition)).
Proof. apply good_block; [apply good_ivdef|apply fr_of_frame, g_ivdef_frame]. Qed.
Lemma scr_sep {A} T (g : G A) sp : scr any T g -> scr any T (sep1 sp g).
Proof. intros (w & a & Sw & H). exists w, [a]. split; [exact Sw|]. intros z Hz. split; [exact I|]. constructor. apply H, Hz. Qed.
Lemma scr_member T : scr any T (g_member Any).
Proof. exists [at_name], (TNamed (B "a") false). split; [reflexivity|]. intros z _. split; [exact I|]. apply mb_plain. constructor. Qed.
Lemma good_listed T0 n k o sp (G0 : G (list ty)) : (forall ts, G0 ts [] ts) -> (forall ts r1 r2 l r, terminal k (B o) ts r1 -> maybe sp r1 r2 -> sep1 sp (g_member Any) r2 l r -> G0 ts l r) ->
  good T0 any (b <- skip1 k o ;; if b then skip1 KPunct sp ;;; do_loop n (parse_type n) (pnot (skip1 KPunct sp)) else pret []) G0.
Proof.
  intros H0 H1. unfold skip1 at 1. eapply (good_skip T0 any _ _ _ (gbind (g_maybe sp) (fun _ => sep1 sp (g_member Any)))).
  - gb any; [apply good_maybe|apply fr_maybe| |apply scr_sep, scr_member]. eapply good_sep; [apply good_member|apply fr_member].
  - eapply good_mono; [apply good_ret|]. intros ts a r (-> & ->). apply H0.
  - intros t x a r E (b & r1 & K1 & K2). eapply H1; [apply is1_term, E|exact K1|exact K2].
Qed.
Lemma good_implements T0 n : good T0 any (parse_implements n) (g_implements Any).
Proof. apply good_listed; intros; econstructor; eassumption. Qed.
Lemma good_members T0 n : good T0 any (parse_members n) (g_members Any).
Proof. apply good_listed; intros; econstructor; eassumption. Qed.
Definition typebody_rest (n : nat) (desc : bytes) (k : tkindT) : P tydef :=
  t <- must0 KName ;;
  im <- (match k with KObject => parse_implements n | _ => pret [] end) ;;
  ds <- parse_directives fok n (kind_location k) ;;
  fs <- (match k with KObject | KInterface => parse_fielddefs fok n | _ => pret [] end) ;;
  ms <- (match k with KUnion => parse_members n | _ => pret [] end) ;;
  vs <- (match k with KEnum => parse_enumvals fok n | _ => pret [] end) ;;
  is <- (match k with KInputObject => parse_inputs fok n | _ => pret [] end) ;;
  pret (mkTd k desc (tlit t) im ds fs ms vs is).
Definition kind_kw (k : tkindT) : bytes := match k with KScalar => B "scalar" | KObject => B "type" | KInterface => B "interface" | KUnion => B "union" | KEnum => B "enum" | KInputObject => B "input" end.
Lemma kind_kw_inv s k : kind_of_kw s = Some k -> s = kind_kw k.
Proof.
  unfold kind_of_kw. intros H. repeat match type of H with (if beqb ?a ?b then _ else _) = _ => destruct (beqb a b) eqn:?; [injection H as <-; apply beqb_true; assumption|] end. discriminate.
Qed.
Ltac sc3 := repeat (cbv beta; first [ progress sc2 | apply scr_block | (apply (scr_nil _ _ []); constructor) ]).
Lemma good_typebody n desc k : good any tame (typebody_rest n desc k) (fun ts y r => forall t, is1 KName (kind_kw k) t = true -> g_tydef fok Any desc (t :: ts) y r).
Proof.
  unfold typebody_rest. destruct k; (eapply good_mono;
  [ gb any; [gn|apply fr_tok| |]; [gb tame; [first [eapply good_cond; [apply (good_implements any)|solve [auto]|solve [auto]]|apply good_ret]|first [apply fr_of_frame, g_implements_frame|apply fr_ret]| |];
    [gb tame; [gdirs true|apply fr_dirs_tame| |];
     [gb tame; [first [apply good_ret|eapply good_cond; [apply (good_fielddefs tame)|solve [auto]|solve [auto]]]|first [apply fr_ret|apply fr_of_frame, g_block_frame, g_fielddef_frame]| |];
      [gb tame; [first [apply good_ret|eapply good_cond; [apply (good_members tame)|solve [auto]|solve [auto]]]|first [apply fr_ret|apply fr_of_frame, g_members_frame]| |];
       [gb tame; [first [apply good_ret|eapply good_cond; [apply (good_enumvals tame)|solve [auto]|solve [auto]]]|first [apply fr_ret|apply fr_of_frame, g_block_frame, g_enumval_frame]| |];
        [gb tame; [first [apply good_ret|eapply good_cond; [apply (good_inputs tame)|solve [auto]|solve [auto]]]|first [apply fr_ret|apply fr_of_frame, g_block_frame, g_ivdef_frame]|gr|gr]
        |]|]|]|]|]|]; sc3
  | intros ts y r H t0 E; un; econstructor; try eassumption; apply is1_term, E]).
Qed.

(** ** Schemas and directives *)
Lemma good_optypedef n : good any any (parse_optypedef n) (g_optype Any).
Proof.
  apply (good_ext _ _ _ (k <- parse_optype ;; need KPunct ":" ;;; y <- (t <- parse_type n ;; named_only t) ;; pret (mkOt k y))).
  { intros ts. unfold parse_optypedef, pbind. destruct (parse_optype ts) as [k r|e r|c]; [|reflexivity|reflexivity]. destruct (need KPunct ":" r) as [u r2|e r2|c]; [|reflexivity|reflexivity]. destruct (parse_type n r2); reflexivity. }
  eapply good_mono.
  - gb any; [apply good_opkind|apply fr_opkind| |]. gb any; [gneed|apply fr_need| |]. gb any; [apply good_named|apply fr_named|gr|gr]. all: sc3.
  - intros ts a r H. un. econstructor; eassumption.
Qed.
Lemma fr_optype : fr any (g_optype Any).
Proof. eapply fr_lenient; [apply g_optype_frame| |]; intros ts t r H; (eapply optype_up; [|exact H]); auto. Qed.
Definition g_optypes : G (list optype) := fun ts l r => exists r1 r2, pun "{" ts r1 /\ many1 (g_optype Any) r1 l r2 /\ pun "}" r2 r.
Lemma good_optypedefs T0 n : front T0 KPunct (B "{") -> good T0 any (parse_optypedefs n) g_optypes.
Proof.
  intros F. unfold parse_optypedefs. eapply good_mono.
  - gb any; [apply good_need, F|apply fr_need| |].
    + apply (good_do any _ _ _ _ (g_optype Any)); [apply good_optypedef|apply fr_optype|auto|apply peeky_close].
    + exists [mkTok KName (B "query") 0 0; closer ":"; at_name; closer "}"], [mkOt Query (TNamed (B "a") false)]. split; [reflexivity|]. intros z _. split; [exact I|]. cbn [app]. exists (closer "}" :: z). split; [|constructor]. split; [|discriminate]. econstructor; [|constructor].
      econstructor; [apply ok_query; constructor|constructor|apply nm_plain; constructor].
  - intros ts a r H. un. match goal with H : closed _ _ _ _ _ |- _ => destruct H as (? & ? & ?) end. do 2 eexists. split; [eassumption|]. split; eassumption.
Qed.
Lemma fr_optypes : fr any g_optypes.
Proof.
  intros ts a r (r1 & r2 & H1 & H2 & H3). inversion H1; subst. assert (K : closed "}" (many1 (g_optype Any)) r1 a r) by (exists r2; auto). destruct (fr_closed any "}" _ (fr_many1 _ _ fr_optype) _ _ _ K) as (p & -> & Hp).
  exists (mkTok KPunct (B "{") l c :: p). split; [reflexivity|]. intros z Hz. destruct (Hp z Hz) as (r3 & K1 & K2). exists (p ++ z), r3. split; [constructor|]. split; assumption.
Qed.
Lemma scr_optypes T0 T : front T0 KPunct (B "{") -> scr T0 T g_optypes.
Proof.
  intros F. exists [closer "{"; mkTok KName (B "query") 0 0; closer ":"; at_name; closer "}"], [mkOt Query (TNamed (B "a") false)]. split; [reflexivity|]. intros z _. split; [apply F|]. cbn [app]. do 2 eexists. split; [constructor|]. split; [|constructor]. split; [|discriminate]. econstructor; [|constructor].
  econstructor; [apply ok_query; constructor|constructor|apply nm_plain; constructor].
Qed.
Lemma good_schemadef n : good any any (parse_schemadef fok n) (g_schema fok Any).
Proof.
  unfold parse_schemadef. eapply good_mono.
  - gb any; [gneed|apply fr_need| |]. gb any; [gdirs true|apply fr_dirs| |]. gb any; [apply good_optypedefs; auto|apply fr_optypes|gr|gr].
    + eapply (scr_bind any any); [apply scr_optypes; auto|]. intros l. sc3.
    + eapply (scr_bind any any); [apply scr_dirs|]. intros ds. eapply (scr_bind any any); [apply scr_optypes; auto|]. intros l. sc3.
  - intros ts a r H. un. match goal with H : g_optypes _ _ _ |- _ => destruct H as (? & ? & ? & ? & ?) end. econstructor; eassumption.
Qed.
Definition g_extops (ds : list directive) : G schemadef := fun ts a r => exists ops, g_block (g_optype Any) ts ops r /\ (ds <> [] \/ ops <> []) /\ a = mkSd ds ops.
Lemma scr_extops ds T : scr any T (g_extops ds).
Proof.
  destruct (scr_optypes any T (front_any KPunct (B "{") eq_refl)) as (w & l & Sw & H). exists w, (mkSd ds l). split; [exact Sw|]. intros z Hz. destruct (H z Hz) as (_ & r1 & r2 & K1 & K2 & K3). split; [exact I|]. exists l. split; [eapply bl_some; eassumption|]. split; [right; apply K2|reflexivity].
Qed.
Lemma good_extops n ds : good any any (b <- peek1 KPunct "{" ;; ops <- (if b then parse_optypedefs n else pret []) ;; match ds, ops with [], [] => perr [] | _, _ => pret (mkSd ds ops) end) (g_extops ds).
Proof.
  unfold peek1. apply good_peek. intros [|].
  - eapply good_mono.
    + apply (good_bind_R any any any (fun l => l <> []) _ _ g_optypes (fun l => gret (mkSd ds l))); [|exact I|apply good_optypedefs; auto|apply fr_optypes|left; auto| |].
      * intros ts a r (r1 & r2 & _ & (_ & K) & _). exact K.
      * intros l Hl. destruct ds, l; try congruence; apply good_ret.
      * intros l _. apply scr_ret. auto.
    + intros ts a r (l & r1 & (r2 & r3 & K1 & K2 & K3) & -> & ->). exists l. split; [eapply bl_some; eassumption|]. split; [right; apply K2|reflexivity].
  - destruct ds as [|d ds].
    + apply (good_ext _ _ _ (perr [])); [reflexivity|]. apply good_fail, scr_extops.
    + apply (good_ext _ _ _ (pret (mkSd (d :: ds) []))); [reflexivity|]. eapply good_mono; [apply good_ret|]. intros ts a r (-> & ->). exists []. split; [constructor|]. split; [left; discriminate|reflexivity].
Qed.
Lemma good_schemaext n : good any any (parse_schemaext fok n) (g_schemaext fok Any).
Proof.
  unfold parse_schemaext. eapply good_mono.
  - gb any; [gneed|apply fr_need| |]. gb any; [gdirs true|apply fr_dirs|apply good_extops|apply scr_extops]. eapply (scr_bind any any); [apply scr_dirs|]. intros ds. apply scr_extops.
  - intros ts a r H. un. match goal with H : g_extops _ _ _ _ |- _ => destruct H as (? & ? & ? & ->) end. econstructor; eassumption.
Qed.
Definition g_loc : G dirloc := fun ts l r => exists nm, g_dirloc Any ts nm r /\ l = location_by_name nm.
Lemma good_dirloc : good any any parse_dirloc g_loc.
Proof.
  intros [|t ts]; [exact I|]. unfold parse_dirloc, mustn, must, pbind. cbn [tok]. destruct (isn KName location_names t) eqn:E.
  - destruct ts as [|t2 ts]; [exact I|]. cbn [advance]. unfold pret. exists (tlit t). split; [|reflexivity]. destruct (isn_term _ _ _ (t2 :: ts) E). apply dl_intro; auto.
  - unfold pfail, perr, pbind. cbn [tok]. unfold pfail. exists (t :: ts), [], [mkTok KName (B "FIELD") 0 0], (location_by_name (B "FIELD")). split; [lh|]. split; [reflexivity|]. split; [intros _ z _; exact I|].
    intros z _. exists (B "FIELD"). split; [|reflexivity]. apply dl_intro; [constructor| |auto]. cbn. tauto.
Qed.
Lemma fr_loc : fr any g_loc.
Proof. intros ts l r (nm & H & ->). inversion H; subst. inversion H0; subst. eexists [_]. split; [reflexivity|]. intros z _. exists nm. split; [|reflexivity]. apply dl_intro; [constructor|auto|auto]. Qed.
Definition g_locs : G dirloc := fun ts l r => exists r1 ns, maybe "|" ts r1 /\ sep1 "|" (g_dirloc Any) r1 ns r /\ locations_denote ns l.
Lemma locs_of ts b r1 l r : g_maybe "|" ts b r1 -> sep1 "|" g_loc r1 l r -> g_locs ts (fold_left N.lor l 0%N) r.
Proof.
  intros H1 H2. destruct (sep1_map _ _ _ _ _ _ H2) as (ns & K1 & ->). exists r1, ns. split; [exact H1|]. split; [exact K1|]. apply locations_fold. eapply sep1_Forall; [|exact K1]. intros ? ? ? H. inversion H; subst. assumption.
Qed.
Lemma scr_locs T : scr any T g_locs.
Proof.
  exists [mkTok KName (B "FIELD") 0 0], (fold_left N.lor [location_by_name (B "FIELD")] 0%N). split; [reflexivity|]. intros z _. split; [exact I|]. cbn [app]. eapply (locs_of _ true); [left; reflexivity|]. apply sep_one. exists (B "FIELD"). split; [|reflexivity]. apply dl_intro; [constructor| |auto]. cbn. tauto.
Qed.
Lemma good_dirlocs n : good any any (parse_dirlocs n) g_locs.
Proof.
  unfold parse_dirlocs. eapply good_mono.
  - gb any; [apply good_maybe|apply fr_maybe| |]. { gb any; [eapply good_sep; [apply good_dirloc|apply fr_loc]|apply fr_sep, fr_loc|gr|gr]. }
    eapply (scr_bind any any); [|intros l; sc3]. apply scr_sep. exists [mkTok KName (B "FIELD") 0 0], (location_by_name (B "FIELD")). split; [reflexivity|]. intros z _. split; [exact I|]. exists (B "FIELD"). split; [|reflexivity]. apply dl_intro; [constructor| |auto]. cbn. tauto.
  - intros ts a r H. un. eapply locs_of; eassumption.
Qed.
Lemma good_dirdef n desc : good any any (parse_dirdef fok n desc) (g_dirdef fok Any desc).
Proof.
  apply (good_ext _ _ _ (b <- skip1 KName "directive" ;; if b then need KPunct "@" ;;; t <- must0 KName ;; args <- parse_argdefs fok n ;; need KName "on" ;;; ls <- parse_dirlocs n ;; pret (mkDd desc (tlit t) args ls) else pcrash NilDeref)).
  { intros ts. unfold parse_dirdef, pbind. destruct (skip1 KName "directive" ts) as [b r|e r|c]; [|reflexivity|reflexivity]. destruct b; reflexivity. }
  unfold skip1 at 1. eapply (good_skip any any _ _ _ (fun ts a r => forall t, is1 KName (B "directive") t = true -> g_dirdef fok Any desc (t :: ts) a r)); [|apply good_crash|].
  - eapply good_mono.
    + gb any; [gneed|apply fr_need| |]. gb any; [gn|apply fr_tok| |]. gb any; [apply good_argdefs|apply fr_argdefs| |]. gb any; [gneed|apply fr_need| |]. gb any; [apply good_dirlocs| |gr|gr].
      * intros ts l r (r1 & ns & H1 & H2 & H3). eapply (fr_seq any (g_maybe "|") (sep1 "|" (g_dirloc Any)) g_locs ts true r1 ns r l); [apply fr_maybe| |exact H1|exact H2|].
        -- apply fr_sep. eapply fr_lenient; [apply g_dirloc_frame| |]; intros x y z K; inversion K; subst; apply dl_intro; auto.
        -- intros x y z K1 K2. exists y, ns. auto.
      * eapply (scr_bind any any); [apply scr_locs|]. intros l. sc3.
      * eapply (scr_bind any any); [apply scr_need; auto|]. intros u. eapply (scr_bind any any); [apply scr_locs|]. intros l. sc3.
      * eapply (scr_bind any any); [apply scr_argdefs|]. intros ar. eapply (scr_bind any any); [apply scr_need; auto|]. intros u. eapply (scr_bind any any); [apply scr_locs|]. intros l. sc3.
      * eapply (scr_bind any any); [apply (scr_tok _ _ _ _ (B "a")); auto|]. intros t. eapply (scr_bind any any); [apply scr_argdefs|]. intros ar. eapply (scr_bind any any); [apply scr_need; auto|]. intros u. eapply (scr_bind any any); [apply scr_locs|]. intros l. sc3.
    + intros ts a r H t0 E. un. match goal with H : g_locs _ _ _ |- _ => destruct H as (? & ? & ? & ? & ?) end. econstructor; try eassumption. apply is1_term, E.
  - intros t x a r E H. apply H, E.
Qed.

(** ** Definitions *)
Definition okres {A} (T : cond) (r : pres A) (g : G A) (ts : list token) : Prop :=
  match r with
  | POk a r => g ts a r
  | PErr e r => exists s pre w a, lates e s r w /\ ts = pre ++ s /\ forall z, T z -> g (pre ++ w ++ z) a z
  | PCrash _ => True
  end.
Lemma okres_good {A} T0 T (p : P A) (g : G A) ts : good T0 T p g -> okres T (p ts) g ts.
Proof. intros H. specialize (H ts). unfold okres. destruct (p ts) as [a r|e r|c]; auto. destruct H as (s & pre & w & a & L & E & _ & H). exists s, pre, w, a. auto. Qed.
Lemma okres_step {A} (T : cond) (r : pres A) t ts (g g' : G A) : okres T r g ts -> (forall x a r, g x a r -> g' (t :: x) a r) -> okres T r g' (t :: ts).
Proof.
  intros H Hg. unfold okres in *. destruct r as [a r|e r|c]; auto. destruct H as (s & pre & w & a & L & E & H). exists s, (t :: pre), w, a. split; [exact L|]. split; [cbn; congruence|]. intros z Hz. apply Hg, H, Hz.
Qed.
Lemma okres_mono {A} (T : cond) (r : pres A) ts (g g' : G A) : okres T r g ts -> (forall x a r, g x a r -> g' x a r) -> okres T r g' ts.
Proof. intros H Hg. unfold okres in *. destruct r as [a r|e r|c]; auto. destruct H as (s & pre & w & a & L & E & H). exists s, pre, w, a. auto. Qed.
Lemma okres_map {A C} (T : cond) (f : A -> C) (p : P A) ts (g : G A) (g' : G C) : okres T (p ts) g ts -> (forall x a r, g x a r -> g' x (f a) r) -> okres T ((a <- p ;; pret (f a)) ts) g' ts.
Proof. intros H Hg. unfold okres, pbind in *. destruct (p ts) as [a r|e r|c]; cbn; auto. destruct H as (s & pre & w & a & L & E & H). exists s, pre, w, (f a). auto. Qed.
Lemma okres_here {A} (T : cond) t ts ws (g : G A) w a : words w = true -> (forall z, T z -> g (w ++ z) a z) -> okres T (PErr (unexpected t ws) (t :: ts)) g (t :: ts).
Proof. intros Sw H. exists (t :: ts), [], w, a. split; [lh|]. split; [reflexivity|]. exact H. Qed.
(** the keyword of a type definition has been seen *)
Definition kws : list bytes := map B type_kws.
Lemma ok_typebody n desc t ts : isn KName kws t = true -> okres tame (parse_typebody fok n desc (t :: ts)) (g_tydef fok Any desc) (t :: ts).
Proof.
  intros E. destruct (isn_term _ _ _ ts E) as [H1 H2]. destruct (type_kw_kind _ H2) as (k & Ek). assert (E0 : is0 KName t = true) by (unfold isn in E; apply andb_true_iff in E; apply E).
  destruct ts as [|t2 ts]; [unfold parse_typebody, must0, must, pbind; cbn [tok]; rewrite E0; exact I|].
  assert (Ep : parse_typebody fok n desc (t :: t2 :: ts) = typebody_rest n desc k (t2 :: ts)).
  { unfold parse_typebody. unfold pbind at 1. unfold must0 at 1. unfold must, pbind at 1. cbn [tok]. rewrite E0. unfold pbind at 1. cbn [advance]. unfold pret at 1. cbv iota. rewrite Ek. reflexivity. }
  rewrite Ep. eapply okres_step; [apply (okres_good any), good_typebody|]. intros x a r H. apply H. unfold is1. unfold is0 in E0. rewrite E0. rewrite (kind_kw_inv _ _ Ek). apply beqb_refl.
Qed.
Definition scalar_a : list token := [mkTok KName (B "scalar") 0 0; at_name].
Lemma scalar_derived desc z : g_tydef fok Any desc (scalar_a ++ z) (mkTd KScalar desc (B "a") [] [] [] [] [] []) z.
Proof. eapply td_scalar; [constructor|constructor|constructor]. Qed.
Definition g_sysdef (d : bytes) : G body := fun ts b r => (d = [] /\ exists s, b = DSchema s /\ g_schema fok Any ts s r) \/ (exists t, b = DType t /\ g_tydef fok Any d ts t r) \/ (exists x, b = DDir x /\ g_dirdef fok Any d ts x r).
Lemma peek_at {A} pr (k : bool -> P A) t ts : (b <- peek pr ;; k b) (t :: ts) = k (pr t) (t :: ts). Proof. reflexivity. Qed.
Lemma sub_tame_ok {A} (r : pres A) g ts : okres any r g ts -> okres tame r g ts.
Proof. unfold okres. destruct r as [a r|e r|c]; auto. intros (s & pre & w & a & L & E & H). exists s, pre, w, a. split; [exact L|]. split; [exact E|]. intros z _. apply H. exact I. Qed.
Lemma ok_sysdef n d t ts : isn KName (map B (tsdef_kws d)) t = true -> okres tame (parse_tsdef fok n d (t :: ts)) (g_sysdef d) (t :: ts).
Proof.
  intros E. unfold parse_tsdef, peek1 at 1. rewrite peek_at. destruct (is1 KName (B "schema") t) eqn:E1.
  - assert (Ed : d = []).
    { destruct d as [|b d]; [reflexivity|]. exfalso. destruct (is1_lit _ _ _ E1) as [H1 H2]. destruct (isn_term _ _ _ ts E) as [_ H3]. rewrite H2 in H3. unfold tsdef_kws in H3. cbn in H3. repeat (destruct H3 as [H3|H3]; [discriminate|]). destruct H3. }
    eapply okres_map; [apply sub_tame_ok, (okres_good any), good_schemadef|]. intros x a r H. left. split; [exact Ed|]. eauto.
  - unfold peek1. rewrite peek_at. destruct (is1 KName (B "directive") t) eqn:E2.
    + eapply okres_map; [apply sub_tame_ok, (okres_good any), good_dirdef|]. intros x a r H. right. right. eauto.
    + unfold peekn. rewrite peek_at. destruct (isn KName (map B type_kws) t) eqn:E3; [|exact I].
      eapply okres_map; [apply ok_typebody, E3|]. intros x a r H. right. left. eauto.
Qed.
Lemma ok_extension n t ts : is1 KName (B "extend") t = true -> okres tame (parse_tsext fok n (t :: ts)) (g_body fok Any) (t :: ts).
Proof.
  intros E. unfold parse_tsext. unfold need. unfold pbind at 1 2. unfold skip1 at 1. rewrite skip_at, E. destruct ts as [|u ts]; [exact I|]. unfold pret at 1. cbv iota.
  eapply (okres_step _ _ _ _ (fun x b r => forall t, is1 KName (B "extend") t = true -> g_body fok Any (t :: x) b r)); [|intros x a r H; apply H, E]. unfold peek1. rewrite peek_at. destruct (is1 KName (B "schema") u) eqn:E1.
  - eapply okres_map; [apply sub_tame_ok, (okres_good any), good_schemaext|]. intros x a r H t' E'. eapply b_xschema; [apply is1_term, E'|exact H].
  - unfold peekn. rewrite peek_at. destruct (isn KName (map B type_kws) u) eqn:E2.
    + eapply okres_map; [apply ok_typebody, E2|]. intros x a r H t' E'. eapply b_xtype; [apply is1_term, E'|exact H|right; auto].
    + unfold perr, pbind. cbn [tok]. unfold pfail. eapply (okres_here _ _ _ _ _ scalar_a); [reflexivity|]. intros z _ t' E'. eapply b_xtype; [apply is1_term, E'|apply scalar_derived|right; auto].
Qed.
Lemma sysdef_body x d y b r : g_desc x d y -> g_sysdef d y b r -> g_body fok Any x b r.
Proof.
  intros Hd [(Ed & s & -> & H)|[(t & -> & H)|(dd & -> & H)]]; [|eapply b_type; eassumption|eapply b_dir; eassumption]. destruct (desc_text _ _ _ Hd Ed) as [->|Hs]; [apply b_schema, H|]. eapply b_schema_desc; [auto|exact Hs|exact H].
Qed.
Definition def_body' (n : nat) : P body := o <- parse_body fok n ;; match o with Some b => pret b | None => pcrash NilDeref end.
Lemma bind_some {A} (p : P A) (ts : list token) : (o <- (b <- p ;; pret (Some b)) ;; match o with Some b => pret b | None => pcrash NilDeref end) ts = p ts.
Proof. unfold pbind. destruct (p ts); reflexivity. Qed.
Lemma ok_body n ts : okres tame (def_body' n ts) (g_body fok Any) ts.
Proof.
  destruct ts as [|t ts]; [exact I|]. unfold def_body', parse_body. set (K := fun o : option body => match o with Some b => pret b | None => pcrash NilDeref end).
  assert (Ht : forall k : token -> P (option body), pbind (t <- tok ;; k t) K (t :: ts) = pbind (k t) K (t :: ts)) by reflexivity. rewrite Ht. clear Ht.
  destruct (isn KName [B "query"; B "mutation"; B "subscription"] t || is1 KPunct (B "{") t) eqn:E1.
  { unfold K. rewrite bind_some. destruct (beqb (tlit t) (B "{")) eqn:E2.
    - eapply okres_mono; [apply sub_tame_ok, (okres_good any), good_shorthand|]. intros x a r (o & -> & H). apply b_op, H.
    - eapply okres_mono; [apply sub_tame_ok, (okres_good any), good_operation|]. intros x a r (o & -> & H). apply b_op, H. }
  destruct (is1 KName (B "fragment") t) eqn:E2.
  { change (okres tame (parse_fragment' n (t :: ts)) (g_body fok Any) (t :: ts)). eapply okres_mono; [apply sub_tame_ok, (okres_good any), good_fragment|]. intros x a r (f & -> & H). apply b_frag, H. }
  destruct (is1 KName (B "extend") t) eqn:E3.
  { unfold K. rewrite bind_some. apply ok_extension, E3. }
  pose proof (good_desc any any (t :: ts)) as Hd. destruct (parse_desc (t :: ts)) as [d r|e r|c] eqn:Ed; [| |unfold pbind; rewrite Ed; exact I].
  2:{ exfalso. unfold parse_desc, consume0, consume, pbind in Ed. cbn [tok] in Ed. destruct (is0 KString t); [destruct ts|]; discriminate. }
  assert (Ht : forall k : bytes -> P (option body), pbind (d <- parse_desc ;; k d) K (t :: ts) = pbind (k d) K r) by (intros k; unfold pbind; rewrite Ed; reflexivity). rewrite Ht. clear Ht.
  destruct (fr_desc _ _ _ Hd) as (p & Ep & Hp). destruct r as [|u r]; [exact I|].
  assert (Ht : forall k : bool -> P (option body), pbind (b <- peekn KName (tsdef_kws d) ;; k b) K (u :: r) = pbind (k (isn KName (map B (tsdef_kws d)) u)) K (u :: r)) by reflexivity. rewrite Ht. clear Ht.
  match goal with |- okres tame ?x _ _ => assert (H : okres tame x (g_sysdef d) (u :: r)) end.
  { destruct (isn KName (map B (tsdef_kws d)) u) eqn:E4.
    - unfold K. rewrite bind_some. apply ok_sysdef, E4.
    - eapply (okres_here _ _ _ _ _ scalar_a); [reflexivity|]. intros z _. right. left. eexists. split; [reflexivity|apply scalar_derived]. }
  match type of H with okres tame ?x _ _ => generalize dependent x end. intros x H. rewrite Ep in Hd |- *. unfold okres in *. destruct x as [a r'|e r'|c]; [|destruct H as (s & pre & w & a & L & E & H)|exact I].
  - eapply sysdef_body; eassumption.
  - exists s, (p ++ pre), w, a. split; [exact L|]. split; [rewrite <- app_assoc; congruence|]. intros z Hz. rewrite <- app_assoc. eapply sysdef_body; [|apply H, Hz]. apply Hp. left. exact I.
Qed.
End Viable.
(** ** Documents *)
Section Documents.
Variable fok : bytes -> bool.
Definition viable (ts : list token) (e : bytes) (r : list token) : Prop :=
  exists s pre w ds, lates e s r w /\ ts = pre ++ s /\ forall x, tkind x = KEOF -> g_defs fok Any (pre ++ w ++ [x]) ds [x].
Lemma eof_tame x : tkind x = KEOF -> tame [x].
Proof. intros E. unfold tame, face. rewrite E. repeat split; congruence. Qed.
Lemma eof_longest d x : tkind x = KEOF -> longest_match d [x].
Proof. intros E _ (r & H). inversion H; subst. discriminate. Qed.
Lemma def_of ts b z : g_body fok Any ts b z -> exists t ts', ts = t :: ts' /\ g_def fok Any ts (mkDef (tline t) (tcol t) b) z.
Proof. intros H. pose proof (body_nonempty fok Any (fun t t' => face t' = face t) (fun _ _ E => E) _ _ _ H). destruct ts as [|t ts]; [cbn in *; lia|]. exists t, ts. split; [reflexivity|]. constructor. exact H. Qed.
Lemma loop_viable n m : forall ts c, wf ts -> (List.length ts <= n)%nat -> (List.length ts <= m)%nat -> match parse_loop fok n m c ts with PErr e r => viable ts e r | _ => True end.
Proof.
  induction m as [|m IH]; intros ts c Hw Hn Hm; [exact I|]. cbn [parse_loop]. unfold pbind at 1. unfold parse_definition. destruct (wf_cons _ Hw) as (t & rt & Hts).
  assert (Htok : tok ts = POk t ts) by (rewrite Hts; reflexivity). unfold pbind at 1. rewrite Htok. unfold pbind at 1.
  pose proof (ok_body fok n ts) as Ho. unfold def_body', pbind in Ho.
  pose proof (parse_body_wp fok n ts (fun o r => match o with Some b => no_block b r /\ wf r /\ (List.length r + 1 <= List.length ts)%nat | None => True end) wf Hw Hn) as Hb.
  unfold wp in Hb. lapply Hb; [clear Hb; intros Hb|intros; auto]. lapply Hb; [clear Hb; intros Hb|intros; auto]. lapply Hb; [clear Hb; intros Hb|intros; auto].
  destruct (parse_body fok n ts) as [[b|] r|e r|cr]; [|exact I| |exact I].
  2:{ unfold okres in Ho. destruct Ho as (s & pre & w & b & L & E & H). destruct (def_of _ _ _ (H [mkTok KEOF [] 0 0] (eof_tame (mkTok KEOF [] 0 0) eq_refl))) as (t0 & ts0 & E0 & _).
      exists s, pre, w, [mkDef (tline t0) (tcol t0) b]. split; [exact L|]. split; [exact E|]. intros x Hx. apply ds_one; [|apply eof_longest, Hx]. pose proof (H [x] (eof_tame _ Hx)) as Hg. destruct (def_of _ _ _ Hg) as (t1 & ts1 & E1 & Hd).
      assert (t1 = t0); [|subst; exact Hd]. destruct pre as [|p0 pre]; [|cbn in E0, E1; congruence]. destruct w as [|w0 w]; [|cbn in E0, E1; congruence]. exfalso. pose proof (body_nonempty fok Any (fun t t' => face t' = face t) (fun _ _ E => E) _ _ _ Hg). cbn in *. lia. }
  destruct Hb as (Hnb & Hwr & Hl). unfold okres, pret in Ho. set (d := mkDef (tline t) (tcol t) b). cbn [option_map pret]. fold d. cbn [def_body]. destruct (wf_cons _ Hwr) as (t2 & r2 & Hr).
  assert (Hpk : forall k, peek0 k r = POk (is0 k t2) r) by (intros k; rewrite Hr; reflexivity).
  destruct (fr_of_frame _ (g_body_frame Any fok) _ _ _ Ho) as (p & Ep & Hp). assert (Hpn : exists p', p = t :: p').
  { destruct p as [|t' p]; [exfalso; apply (f_equal (@List.length token)) in Ep; cbn [app] in Ep; lia|]. rewrite Ep in Hts. cbn in Hts. injection Hts as -> _. eauto. }
  destruct Hpn as (p' & ->). assert (Hdef : forall z, tame z \/ fronts r z -> g_def fok Any ((t :: p') ++ z) d z) by (intros z Hz; cbn [app]; constructor; apply Hp, Hz).
  assert (Hend : forall e, late e r r -> viable ts e r).
  { intros e L. exists r, (t :: p'), [], [d]. split; [split; [exact L|reflexivity]|]. split; [exact Ep|]. intros x Hx. apply ds_one; [apply Hdef; left; apply eof_tame, Hx|apply eof_longest, Hx]. }
  unfold pbind at 1. rewrite Hpk. destruct (is0 KIllegal t2) eqn:Hill.
  { unfold perr, pbind, pfail. rewrite Hr. cbn [tok]. rewrite <- Hr. apply Hend. rewrite Hr. eapply late_here. reflexivity. }
  unfold pbind at 1. rewrite Hpk. destruct (is0 KEOF t2) eqn:Heof; [exact I|].
  assert (Hn' : (List.length r <= n)%nat) by lia. assert (Hm' : (List.length r <= m)%nat) by lia.
  specialize (IH r (count_def c b) Hwr Hn' Hm'). change (def_body d) with b. unfold pbind. destruct (parse_loop fok n m (count_def c b) r) as [[ds c'] r'|e r'|cr]; [exact I| |exact I].
  destruct IH as (s & pre & w & ds & L & E & H). destruct pre as [|q pre].
  - cbn in E. subst s. exists r, (t :: p'), [], [d]. split; [split; [apply L|reflexivity]|]. split; [exact Ep|]. intros x Hx. apply ds_one; [apply Hdef; left; apply eof_tame, Hx|apply eof_longest, Hx].
  - exists s, ((t :: p') ++ q :: pre), w, (d :: ds). split; [exact L|]. split; [rewrite <- app_assoc; congruence|]. intros x Hx. rewrite <- app_assoc. eapply ds_more; [apply Hdef; right; rewrite E; reflexivity| |apply H, Hx].
    intros Hbo (r3 & Hr3). apply (Hnb Hbo). rewrite E. inversion Hr3; subst. eexists. constructor.
Qed.
Theorem parse_tokens_viable ts : wf ts -> match parse_tokens fok ts with PErr e r => viable ts e r | _ => True end.
Proof.
  intros Hw. pose proof (loop_viable (List.length ts) (List.length ts) ts (mkC 0 0 0 0 0 0 []) Hw (le_n _) (le_n _)) as H. unfold parse_tokens, pbind. destruct (parse_loop fok (List.length ts) (List.length ts) (mkC 0 0 0 0 0 0 []) ts) as [x r|e r|c]; auto.
Qed.
End Documents.
