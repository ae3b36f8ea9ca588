(** * ParserViable2: [good] for the functions of the parser. *)
From Verif Require Import Base Utf8 Lexer AST Parser Grammar GrammarProps GrammarFrame ParserWp ParserSound ParserLocal ParserComplete ParserViable.
Local Open Scope p_scope.
#[local] Hint Resolve sub_any sub_refl : core.
#[local] Hint Extern 1 (front any _ _) => (apply front_any; reflexivity) : core.

(** ** Frames *)
Lemma fr_of_frame {A} (g : G A) : frame Any g -> fr tame g.
Proof. intros f ts a r H. destruct (f _ _ _ H) as (p & E & Hp). exists p. split; [exact E|]. intros z Hz. apply Hp; [reflexivity|]. intros _. exact Hz. Qed.
Lemma fr_lenient {A} (g g' : G A) : frame Lenient g -> up g g' -> up g' g -> fr any g'.
Proof. intros f U U' ts a r H. destruct (f _ _ _ (U' _ _ _ H)) as (p & E & Hp). exists p. split; [exact E|]. intros z _. apply U, Hp; [reflexivity|]. discriminate. Qed.
Lemma fr_closed {A} T c (g : G A) : fr T g -> fr any (closed c g).
Proof.
  intros f ts l r (r1 & H1 & H2). destruct (f _ _ _ H1) as (p & -> & Hp). inversion H2; subst. exists (p ++ [mkTok KPunct (B c) l0 c0]). split; [rewrite <- app_assoc; reflexivity|].
  intros z _. rewrite <- app_assoc. exists (mkTok KPunct (B c) l0 c0 :: z). split; [apply Hp; right; reflexivity|constructor].
Qed.
Lemma good_ext {A} T0 T (p q : P A) (g : G A) : (forall ts, p ts = q ts) -> good T0 T q g -> good T0 T p g.
Proof. intros E H ts. rewrite E. apply H. Qed.
(** ** Types *)
Definition at_name : token := mkTok KName (B "a") 0 0.
Lemma type_out n : forall ts, match parse_type n ts with
  | POk t r => g_type Any ts t r
  | PErr e r => exists u r', r = u :: r' /\
      ((e = unexpected u [expected KName []] /\ ts = r /\ (forall n r', ~ name n r r') /\ forall r', ~ pun "[" r r')
       \/ (e = unexpected u [want KPunct "]"] /\ exists s1 t, pun "[" ts s1 /\ g_type Any s1 t r /\ forall r', ~ pun "]" r r'))
  | PCrash _ => True end.
Proof.
  induction n as [|n IH]; intros ts; [exact I|]. cbn [parse_type]. destruct ts as [|t ts]; [exact I|]. unfold pbind at 1. unfold skip1 at 1. rewrite skip_at. destruct (is1 KPunct (B "[") t) eqn:E.
  - destruct ts as [|t2 ts]; [exact I|]. assert (Hb : pun "[" (t :: t2 :: ts) (t2 :: ts)) by apply is1_term, E. specialize (IH (t2 :: ts)). destruct (parse_type n (t2 :: ts)) as [it r|e r|c]; [| |exact I].
    + destruct r as [|u r]; [exact I|]. unfold must1, must, pbind. cbn [tok]. destruct (is1 KPunct (B "]") u) eqn:E2.
      * destruct r as [|u2 r]; [exact I|]. cbn [advance]. assert (Hc : pun "]" (u :: u2 :: r) (u2 :: r)) by apply is1_term, E2. unfold pret at 1. cbv iota. unfold skip1. rewrite skip_at. destruct (is1 KPunct (B "!") u2) eqn:E3.
        -- destruct r as [|u3 r]; [exact I|]. eapply ty_list_nn; [exact Hb|exact IH|exact Hc|apply is1_term, E3].
        -- eapply ty_list; [exact Hb|exact IH|exact Hc].
      * unfold pfail. exists u, r. split; [reflexivity|]. right. split; [reflexivity|]. exists (t2 :: ts), it. split; [exact Hb|]. split; [exact IH|]. apply is1_neg, E2.
    + destruct IH as (u & r' & -> & [(_ & Et & N1 & N2)|(_ & s1 & t' & K1 & K2 & K3)]).
      * rewrite Et in Hb |- *. eapply ty_open; [reflexivity|exact Hb|exact N1|exact N2].
      * eapply ty_open_list; [reflexivity|exact Hb|exact K1|exact K2|exact K3].
  - unfold must0, must, pbind. cbn [tok]. destruct (is0 KName t) eqn:E2.
    + destruct ts as [|t2 ts]; [exact I|]. cbn [advance]. assert (Hn : name (tlit t) (t :: t2 :: ts) (t2 :: ts)) by apply is0_term, E2. unfold pret at 1. cbv iota. unfold skip1. rewrite skip_at. destruct (is1 KPunct (B "!") t2) eqn:E3.
      * destruct ts as [|t3 ts]; [exact I|]. eapply ty_named_nn; [exact Hn|apply is1_term, E3].
      * apply ty_named. exact Hn.
    + unfold pfail. exists t, ts. split; [reflexivity|]. left. split; [reflexivity|]. split; [reflexivity|]. split; [|apply is1_neg, E]. intros nm r' H. inversion H; subst. discriminate.
Qed.
Lemma closable ts t r : g_type Any ts t r -> exists p w t', words w = true /\ ts = p ++ r /\ forall z, g_type Any (p ++ w ++ z) t' z.
Proof.
  intros H. induction H as [ts n r H|ts n r1 r H1 H2|ts r1 t r2 r H1 H2 IH H3|ts r1 t r2 r3 r H1 H2 IH H3 H4|ts r Ha H N1 N2|ts r1 r2 t r Ha H1 H2 H3 IH N].
  - inversion H; subst. eexists [_], [], _. split; [reflexivity|]. split; [reflexivity|]. intros z. eapply ty_named. constructor.
  - inversion H1; subst. inversion H2; subst. eexists [_; _], [], _. split; [reflexivity|]. split; [reflexivity|]. intros z. eapply ty_named_nn; constructor.
  - destruct (g_type_frame Any _ _ _ H2) as (p & -> & Hp). inversion H1; subst. inversion H3; subst. eexists (_ :: p ++ [_]), [], _. split; [reflexivity|]. split; [cbn; rewrite <- app_assoc; reflexivity|].
    intros z. cbn [app]. rewrite <- app_assoc. eapply ty_list; [constructor| |constructor]. apply Hp; [reflexivity|]. intros _. right. reflexivity.
  - destruct (g_type_frame Any _ _ _ H2) as (p & -> & Hp). inversion H1; subst. inversion H3; subst. inversion H4; subst. eexists (_ :: p ++ [_; _]), [], _. split; [reflexivity|]. split; [cbn; rewrite <- app_assoc; reflexivity|].
    intros z. cbn [app]. rewrite <- app_assoc. eapply ty_list_nn; [constructor| |constructor|constructor]. apply Hp; [reflexivity|]. intros _. right. reflexivity.
  - inversion H; subst. eexists [_], [at_name; closer "]"], _. split; [reflexivity|]. split; [reflexivity|]. intros z. eapply ty_list; [constructor|apply ty_named; constructor|constructor].
  - destruct IH as (p & w & t' & Sw & -> & Hp). inversion H1; subst. inversion H2; subst. eexists (_ :: _ :: p), (w ++ [closer "]"; closer "]"]), _. split; [apply words_app; [exact Sw|reflexivity]|]. split; [reflexivity|]. intros z. cbn [app].
    rewrite <- app_assoc. eapply ty_list; [constructor|eapply ty_list; [constructor|apply Hp|constructor]|constructor].
Qed.
Lemma good_type n : good any any (parse_type n) (g_type Any).
Proof.
  intros ts. pose proof (type_out n ts) as H. destruct (parse_type n ts) as [t r|e r|c]; [exact H| |exact I]. destruct H as (u & r' & -> & [(-> & -> & _)|(-> & s1 & t & K1 & K2 & _)]).
  - exists (u :: r'), [], [at_name], (TNamed (B "a") false). split; [lh|]. split; [reflexivity|]. split; [intros _ z _; exact I|]. intros z _. apply ty_named. constructor.
  - destruct (closable _ _ _ K2) as (p & w & t' & Sw & -> & Hp). inversion K1; subst. exists (u :: r'), (mkTok KPunct (B "[") l c :: p), (w ++ [closer "]"]), (TList t' false). split; [lh; apply words_app; [exact Sw|reflexivity]|]. split; [reflexivity|].
    split; [intros _ z _; exact I|]. intros z _. cbn [app]. rewrite <- app_assoc. eapply ty_list; [constructor|apply Hp|constructor].
Qed.
Lemma fr_type : fr tame (g_type Any). Proof. apply fr_of_frame, g_type_frame. Qed.
Lemma scr_type T : scr any T (g_type Any).
Proof. exists [at_name], (TNamed (B "a") false). split; [reflexivity|]. intros z _. split; [exact I|]. apply ty_named. constructor. Qed.
Lemma good_member n : good any any (parse_type n) (g_member Any).
Proof. eapply good_mono; [apply good_type|]. intros ts t r H. apply mb_any; [discriminate|exact H]. Qed.
Lemma fr_member : fr tame (g_member Any). Proof. apply fr_of_frame, g_member_frame. Qed.
(** where only a name may stand *)
Lemma list_not_named ts t r : g_type Any ts t r -> (forall n nn, t <> TNamed n nn) -> list_type_stands ts r.
Proof. intros H N. inversion H; subst; try (exfalso; eapply N; reflexivity); (eexists; split; [eassumption|left; eauto]). Qed.
Lemma good_named T n : good any T (t <- parse_type n ;; named_only t) (g_named Any).
Proof.
  intros ts. unfold pbind. pose proof (type_out n ts) as H. destruct (parse_type n ts) as [t r|e r|c]; [| |exact I].
  - destruct t as [nm nn|it nn|]; cbn [named_only]; [apply g_type_named, H| |]; (destruct r as [|u r]; [exact I|]); unfold perr, pbind; cbn [tok]; unfold pfail;
      (exists ts, [], [at_name], (TNamed (B "a") false); split; [split; [eapply late_list; [eapply list_not_named; [exact H|discriminate]|left; reflexivity]|reflexivity]|]; split; [reflexivity|]; split; [intros _ z _; exact I|]; intros z _; apply nm_plain; constructor).
  - exists ts, [], [at_name], (TNamed (B "a") false). split; [|split; [reflexivity|]; split; [intros _ z _; exact I|]; intros z _; apply nm_plain; constructor].
    split; [|reflexivity]. destruct H as (u & r' & -> & [(-> & -> & _)|(-> & s1 & t & K1 & K2 & _)]); [eapply late_here; reflexivity|]. eapply late_list; [exists s1; split; [exact K1|right; eauto]|right; reflexivity].
Qed.
Lemma any_lenient : lenient Any. Proof. discriminate. Qed.
Lemma le_lenient : lenient Lenient. Proof. discriminate. Qed.
#[local] Hint Resolve any_lenient le_lenient : core.
Lemma fr_named : fr any (g_named Any).
Proof. eapply fr_lenient; [apply g_named_frame| |]; intros ts t r H; (eapply named_up; [|exact H]); auto. Qed.
Lemma scr_named T : scr any T (g_named Any).
Proof. exists [at_name], (TNamed (B "a") false). split; [reflexivity|]. intros z _. split; [exact I|]. apply nm_plain. constructor. Qed.

(** ** Sequences *)
Ltac gb T1 := match goal with |- good ?T0 ?T _ _ => eapply (good_bind T0 T1 T); [| |first [left; solve [auto]|right; apply tok_eats]|intros ?|intros ?] end.
Ltac un := repeat match goal with
  | H : gbind _ _ _ _ _ |- _ => destruct H as (? & ? & ? & H)
  | H : gtok _ _ _ _ _ |- _ => destruct H as (? & H & ?)
  | H : gret _ _ _ _ |- _ => destruct H as (? & ?)
  end; subst; repeat match goal with H : tlit ?t = B _, K : context [tlit ?t] |- _ => rewrite H in K end.
Lemma good_need T0 T k l : front T0 k (B l) -> good T0 T (need k l) (gbind (gtok k (fun x => x = B l)) (fun _ => gret tt)).
Proof.
  intros F. unfold need. unfold skip1. eapply (good_skip T0 T _ (pret tt) _ (gret tt)); [apply good_ret| |].
  - apply good_fail. exists [mkTok k (B l) 0 0], tt. split; [apply (front_words _ _ _ F)|]. intros z _. split; [apply F|]. exists (mkTok k (B l) 0 0), z. split; [|split; reflexivity]. split; [reflexivity|]. split; [constructor|reflexivity].
  - intros t x a r Hp (-> & ->). exists t, x. split; [|split; reflexivity]. destruct (is1_tok _ _ t x Hp). split; [reflexivity|]. split; assumption.
Qed.
Lemma fr_need k l : fr any (gbind (gtok k (fun x => x = B l)) (fun _ => gret tt)).
Proof.
  intros ts a r (t & r1 & H & E1 & E2). subst. destruct (fr_tok _ _ _ _ _ H) as (p & -> & Hp). exists p. split; [reflexivity|]. intros z _. exists t, z. split; [apply Hp; left; exact I|split; reflexivity].
Qed.
Lemma need_eats k l ts a : ~ gbind (gtok k (fun x => x = B l)) (fun _ => gret tt) ts a ts.
Proof. intros (t & r1 & H & E1 & E2). subst. exact (tok_eats _ _ _ _ H). Qed.
Lemma scr_need T0 T k l : front T0 k (B l) -> scr T0 T (gbind (gtok k (fun x => x = B l)) (fun _ => gret tt)).
Proof. intros F. eapply (scr_bind T0 any T). { eapply scr_tok; [reflexivity|exact F]. } intros _. apply scr_ret. auto. Qed.

(** ** Values *)
Lemma good_consume' {A} T0 T (pr : token -> bool) (k : option token -> P A) (gp : token -> G A) (g : G A) :
  (forall t, pr t = true -> good any T (k (Some t)) (gp t) \/ exists e, k (Some t) = pfail e /\ forall r, late e (t :: r) r) -> good T0 T (k None) g -> scr T0 T g ->
  (forall t x a r, pr t = true -> gp t x a r -> g (t :: x) a r) -> good T0 T (pbind (consume pr) k) g.
Proof.
  intros Hp Hq (w & a0 & Sw & Hs) Hg [|t ts]; [exact I|]. unfold consume, pbind at 1, pbind at 1. cbn [tok]. destruct (pr t) eqn:E; [|apply (Hq (t :: ts))]. unfold pbind at 1. destruct ts as [|t2 ts]; [exact I|]. cbn [advance].
  unfold pret. cbv beta iota. destruct (Hp t E) as [H|(e & -> & H)].
  - eapply good_step; [exact H|]. intros x a r. apply Hg, E.
  - unfold pfail. exists (t :: t2 :: ts), [], w, a0. split; [split; [apply H|exact Sw]|]. split; [reflexivity|]. split; [intros _ z Hz; apply Hs, Hz|intros z Hz; apply Hs, Hz].
Qed.
Section Viable.
Variable fok : bytes -> bool.
Lemma scr_value T c : scr any T (g_value fok Any c).
Proof. exists [at_name], (VEnum (B "a")). split; [reflexivity|]. intros z _. split; [exact I|]. apply v_enum; [constructor| | |]; discriminate. Qed.
Lemma fr_value c : fr any (g_value fok Any c).
Proof. eapply (fr_lenient (g_value fok Lenient c)); [exact (g_value_frame Lenient fok c)| |]; intros ts t r H; (eapply value_up; [|exact H]); auto. Qed.
Lemma fr_ofield c : fr any (g_ofield fok Any c).
Proof. eapply (fr_lenient (g_ofield fok Lenient c)); [exact (g_ofield_frame Lenient fok c)| |]; intros ts t r H; (eapply ofield_up; [|exact H]); auto. Qed.
Lemma fr_arg c : fr any (g_arg fok Any c).
Proof. eapply fr_lenient; [apply g_arg_frame| |]; intros ts t r H; (eapply arg_up; [|exact H]); auto. Qed.
Lemma good_entry {A} (f : bytes -> value -> A) n c : good any any (parse_value fok n) (g_value fok Any c) ->
  good any any (t <- must0 KName ;; must1 KPunct ":" ;;; v <- parse_value fok n ;; pret (f (tlit t) v))
    (fun ts a r => exists nm r1 r2 v, name nm ts r1 /\ pun ":" r1 r2 /\ g_value fok Any c r2 v r /\ a = f nm v).
Proof.
  intros Hv. eapply good_mono.
  - gb any. { apply (good_must0 _ _ _ (B "a")); auto. } { apply fr_tok. }
    + gb any. { apply good_must1; auto. } { apply fr_tok. }
      * gb any. { apply Hv. } { apply fr_value. } { apply good_ret. } { apply scr_ret; auto. }
      * eapply scr_bind; [apply scr_value|]. intros v. apply scr_ret. auto.
    + eapply (scr_bind any any); [eapply scr_tok; [reflexivity|auto]|]. intros _. eapply scr_bind; [apply scr_value|]. intros v. apply scr_ret. auto.
  - intros ts a r H. un. do 4 eexists. repeat (split; [eassumption|]). reflexivity.
Qed.
Lemma good_value n c : good any any (parse_value fok n) (g_value fok Any c).
Proof.
  induction n as [|n IH]; [intros ts; exact I|]. cbn [parse_value]. unfold skip1, consume0.
  eapply (good_skip any any _ _ _ (gbind (gtok KName (fun _ => True)) (fun t => gret (VVar (tlit t))))).
  { gb any. { apply (good_must0 _ _ _ (B "a")); auto. } { apply fr_tok. } { apply good_ret. } { apply scr_ret; auto. } }
  2:{ intros t x a r E H. un. eapply v_var; [right; auto|apply is1_term, E|eassumption]. }
  apply (good_consume' any any _ _ (fun t => match atoi (tlit t) with Some z => gret (VInt z) | None => fun _ _ _ => False end)); [| |apply scr_value|].
  { intros t E. destruct (atoi (tlit t)) eqn:Ea; [left; apply good_ret|]. right. eexists. split; [reflexivity|]. intros r. apply late_int; [apply kind_eqb_true, E|reflexivity|exact Ea]. }
  2:{ intros t x a r E H. destruct (atoi (tlit t)) eqn:Ea; [|contradiction]. un. destruct (atoi_sound _ _ Ea) as [H1 H2]. eapply v_int; [apply is0_term, E|exact H1|exact H2]. }
  apply (good_consume' any any _ _ (fun t => if fok (tlit t) then gret (VFloat (tlit t)) else fun _ _ _ => False)); [| |apply scr_value|].
  { intros t E. destruct (fok (tlit t)) eqn:Ea; [left; apply good_ret|]. right. eexists. split; [reflexivity|]. intros r. apply late_float; [apply kind_eqb_true, E|reflexivity]. }
  2:{ intros t x a r E H. destruct (fok (tlit t)) eqn:Ea; [|contradiction]. un. eapply v_float; [apply is0_term, E|exact Ea]. }
  apply (good_consume' any any _ _ (fun t => gret (VString (tlit t)))); [left; apply good_ret| |apply scr_value|].
  2:{ intros t x a r E H. un. apply v_string. apply is0_term, E. }
  set (rest := b <- skip (is1 KPunct (B "[")) ;; if b then l <- loop_until n (skip (is1 KPunct (B "]"))) (parse_value fok n) ;; pret (VList l) else
      b <- skip (is1 KPunct (B "{")) ;; if b then l <- loop_until n (skip (is1 KPunct (B "}"))) (parse_object_field (parse_value fok n)) ;; pret (VObject l) else
      pfail (B "TODO: see `parseDefinition`")).
  apply (good_ext _ _ _ (o <- consume (is0 KName) ;; match o with Some t => pret (if isn KName [B "true"; B "false"] t then VBool (beqb (tlit t) (B "true")) else if is1 KName (B "null") t then VNull else VEnum (tlit t)) | None => rest end)).
  { intros [|t ts]; [reflexivity|]. clear. clearbody rest. unfold consume, skip, pbind. cbn [tok]. destruct (isn KName [B "true"; B "false"] t) eqn:E1.
    - assert (E0 : is0 KName t = true) by (unfold isn in E1; apply andb_true_iff in E1; apply E1). rewrite E0. destruct ts as [|t2 ts]; [reflexivity|]. cbn [advance]. unfold pret. rewrite E1. reflexivity.
    - unfold pret. cbn [tok]. destruct (is1 KName (B "null") t) eqn:E2.
      + assert (E0 : is0 KName t = true) by (unfold is1 in E2; apply andb_true_iff in E2; apply E2). rewrite E0. destruct ts as [|t2 ts]; [reflexivity|]. cbn [advance]. rewrite E1, E2. reflexivity.
      + cbn [tok]. destruct (is0 KName t); [|reflexivity]. destruct ts as [|t2 ts]; [reflexivity|]. cbn [advance]. rewrite E1, E2. reflexivity. }
  apply (good_consume' any any _ _ (fun t => gret (if isn KName [B "true"; B "false"] t then VBool (beqb (tlit t) (B "true")) else if is1 KName (B "null") t then VNull else VEnum (tlit t)))); [left; apply good_ret| |apply scr_value|].
  2:{ intros t x a r E H. un. destruct (isn KName [B "true"; B "false"] t) eqn:E1; [|destruct (is1 KName (B "null") t) eqn:E2].
    - destruct (isn_term _ _ _ x E1) as [H1 [H2|[H2|[]]]]; rewrite <- H2 in H1 |- *; [apply v_true|apply v_false]; exact H1.
    - apply v_null, is1_term, E2.
    - apply v_enum; [apply is0_term, E| | |]; unfold is0, isn, is1 in *; rewrite E in E1, E2; cbn [andb] in *; intros Et; rewrite Et in *; discriminate. }
  subst rest. eapply (good_skip any any _ _ _ (gbind (closed "]" (many (g_value fok Any c))) (fun l => gret (VList l)))).
  { gb any. { apply good_until; [auto|exact IH|apply fr_value]. } { eapply fr_closed, fr_many, fr_value. } { apply good_ret. } { apply scr_ret; auto. } }
  2:{ intros t x a r E (l & r1 & (r2 & H1 & H2) & E1 & E2). subst. eapply v_list; [apply is1_term, E|eassumption|eassumption]. }
  apply (good_ext _ _ _ (b <- skip (is1 KPunct (B "{")) ;; if b then l <- loop_until n (skip (is1 KPunct (B "}"))) (parse_object_field (parse_value fok n)) ;; pret (VObject l) else (tok ;;; pfail todo))).
  { intros [|t ts]; [reflexivity|]. unfold pbind at 1 3. rewrite skip_at. destruct (is1 KPunct (B "{") t); [destruct ts; reflexivity|reflexivity]. }
  eapply (good_skip any any _ _ _ (gbind (closed "}" (many (g_ofield fok Any c))) (fun l => gret (VObject l)))).
  { gb any. { apply good_until; [auto| |apply fr_ofield]. eapply good_mono; [apply (good_entry (fun x v => (x, v))), IH|]. intros ts a r (nm & r1 & r2 & v & H1 & H2 & H3 & ->). econstructor; eassumption. }
    { eapply fr_closed, fr_many, fr_ofield. } { apply good_ret. } { apply scr_ret; auto. } }
  2:{ intros t x a r E (l & r1 & (r2 & H1 & H2) & E1 & E2). subst. eapply v_object; [apply is1_term, E|eassumption|eassumption]. }
  apply good_todo, scr_value.
Qed.

(** ** Arguments and directives *)
Lemma good_default T0 n : good T0 any (parse_default fok n) (g_default fok Any).
Proof.
  unfold parse_default, skip1. eapply (good_skip T0 any _ _ _ (gbind (g_value fok Any true) (fun v => gret (Some v)))).
  - gb any. { apply good_value. } { apply fr_value. } { apply good_ret. } { apply scr_ret; auto. }
  - eapply good_mono; [apply good_ret|]. intros ts a r H. un. constructor.
  - intros t x a r E H. un. econstructor; [apply is1_term, E|eassumption].
Qed.
Lemma scr_default T0 : scr T0 T0 (g_default fok Any).
Proof. exists [], None. split; [reflexivity|]. intros z H. split; [exact H|constructor]. Qed.
Lemma fr_default : fr any (g_default fok Any).
Proof. eapply fr_lenient; [apply g_default_frame| |]; intros ts t r H; (eapply default_up; [|exact H]); auto. Qed.
Lemma good_argument n c : good any any (parse_argument fok n) (g_arg fok Any c).
Proof. eapply good_mono; [apply (good_entry mkArg), good_value|]. intros ts a r (nm & r1 & r2 & v & H1 & H2 & H3 & ->). econstructor; eassumption. Qed.
Lemma good_args T0 n c : good T0 any (parse_arguments fok n) (g_args fok Any c).
Proof.
  unfold parse_arguments, skip1 at 1. eapply (good_skip T0 any _ _ _ (closed ")" (many (g_arg fok Any c)))).
  - apply good_until; [auto|apply good_argument|apply fr_arg].
  - eapply good_mono; [apply good_ret|]. intros ts a r H. un. constructor.
  - intros t x a r E (r1 & H1 & H2). eapply args_some; [apply is1_term, E|exact H1|exact H2|right; auto].
Qed.
Lemma scr_args T0 c : scr T0 T0 (g_args fok Any c).
Proof. exists [], []. split; [reflexivity|]. intros z H. split; [exact H|constructor]. Qed.
Lemma fr_args c : fr any (g_args fok Any c).
Proof. eapply fr_lenient; [apply g_args_frame| |]; intros ts t r H; (eapply args_up; [|exact H]); auto. Qed.
Lemma good_dir T0 n c l : front T0 KPunct (B "@") -> good T0 any (parse_directive fok n l) (g_dir fok Any c l).
Proof.
  intros F. unfold parse_directive. eapply good_mono.
  - gb any. { apply good_must1; auto. } { apply fr_tok. }
    + gb any. { apply (good_must0 _ _ _ (B "a")); auto. } { apply fr_tok. }
      * gb any. { apply (good_args _ _ c). } { apply fr_args. } { apply good_ret. } { apply scr_ret; auto. }
      * eapply scr_bind; [apply scr_args|]. intros v. apply scr_ret. auto.
    + eapply (scr_bind any any); [eapply (scr_tok _ _ _ _ (B "a")); auto|]. intros t. eapply scr_bind; [apply scr_args|]. intros v. apply scr_ret. auto.
  - intros ts a r H. un. econstructor; eassumption.
Qed.
Lemma fr_dir c l : fr any (g_dir fok Any c l).
Proof. eapply fr_lenient; [apply g_dir_frame| |]; intros ts t r H; (eapply dir_up; [|exact H]); auto. Qed.
Lemma dir_eats c l ts a : ~ g_dir fok Any c l ts a ts.
Proof. intros H. inversion H; subst. inversion H0; subst. inversion H1; subst. destruct (g_args_suffix _ _ _ _ _ _ H2) as (p & E). apply (f_equal (@List.length token)) in E. rewrite app_length in E. cbn in E. lia. Qed.
Lemma good_dirs T0 n c l : front T0 KPunct (B "@") -> good T0 any (parse_directives fok n l) (g_dirs fok Any c l).
Proof. intros F. unfold parse_directives, g_dirs. apply good_while; [apply good_dir, F|apply fr_dir|apply dir_eats]. Qed.
Lemma scr_dirs T0 c l : scr T0 T0 (g_dirs fok Any c l).
Proof. apply scr_many. auto. Qed.
Lemma fr_dirs c l : fr any (g_dirs fok Any c l).
Proof. apply fr_many, fr_dir. Qed.

(** ** Selections *)
Lemma good_cond' n : good any any (parse_type_condition n) (g_cond Any).
Proof.
  unfold parse_type_condition. eapply good_mono.
  - gb any. { apply good_must1; auto. } { apply fr_tok. } { apply good_named. } { apply scr_named. }
  - intros ts a r H. un. econstructor; eassumption.
Qed.
Lemma scr_gcond T : scr any T (g_cond Any).
Proof. eapply scr_mono; [eapply (scr_bind any any); [eapply (scr_tok _ _ KName (fun x => x = B "on")); [reflexivity|auto]|intros ?; apply scr_named]|]. intros ts a r H. un. econstructor; eassumption. Qed.
Lemma fr_gcond : fr any (g_cond Any).
Proof. eapply fr_lenient; [apply g_cond_frame| |]; intros ts t r H; (eapply cond_up; [|exact H]); auto. Qed.
Lemma fr_opt_cond : fr any (g_opt_cond Any).
Proof. eapply fr_lenient; [apply g_opt_cond_frame| |]; intros ts t r H; (eapply opt_cond_up; [|exact H]); auto. Qed.
Lemma fr_sel : fr any (g_sel fok Any).
Proof. eapply (fr_lenient (g_sel fok Lenient)); [exact (g_sel_frame Lenient fok)| |]; intros ts t r H; (eapply sel_up; [|exact H]); auto. Qed.
Lemma fr_selset : fr any (g_selset fok Any).
Proof. eapply (fr_lenient (g_selset fok Lenient)); [exact (g_selset_frame Lenient fok)| |]; intros ts t r H; (eapply selset_up; [|exact H]); auto. Qed.
Lemma fr_alias : fr any g_alias.
Proof. intros ts a r H. destruct (g_alias_frame Lenient _ _ _ H) as (p & E & Hp). exists p. split; [exact E|]. intros z _. apply Hp; [reflexivity|]. discriminate. Qed.
Lemma scr_selset T0 T : front T0 KPunct (B "{") -> scr T0 T (g_selset fok Any).
Proof.
  intros F. exists [closer "{"; at_name; closer "}"], [SField [] (B "a") [] [] []]. split; [reflexivity|]. intros z _. split; [apply F|]. cbn [app]. eapply ss_intro; [constructor| |discriminate|constructor].
  econstructor; [|constructor]. eapply sel_field; [apply al_none; constructor|constructor|constructor|constructor].
Qed.
Lemma scr_opt_selset T0 : scr T0 T0 (g_opt_selset fok Any).
Proof. exists [], []. split; [reflexivity|]. intros z H. split; [exact H|constructor]. Qed.
Definition good_sels (selset : bool -> P (list selection)) : Prop :=
  (forall T0, good T0 any (selset true) (g_opt_selset fok Any)) /\ (forall T0, front T0 KPunct (B "{") -> good T0 any (selset false) (g_selset fok Any)).
Lemma fr_opt_selset : fr any (g_opt_selset fok Any).
Proof. intros ts a r H. inversion H; subst; [exists []; split; [reflexivity|]; intros z _; constructor|]. destruct (fr_selset _ _ _ H0) as (p & E & Hp). exists p. split; [exact E|]. intros z Hz. constructor. apply Hp. left. exact I. Qed.
Lemma good_spread n (f := fun t => is0 KName t && negb (beqb (tlit t) (B "on"))) : good any any (t <- must f (expected KName []) ;; ds <- parse_directives fok n LFragmentSpread ;; pret (SSpread (tlit t) ds))
   (fun ts a r => exists nm r1 ds, name nm ts r1 /\ nm <> B "on" /\ g_dirs fok Any false LFragmentSpread r1 ds r /\ a = SSpread nm ds).
Proof.
  eapply good_mono.
  - gb any. { apply (good_must _ _ _ _ KName (fun x => x <> B "on") (B "a")); [|discriminate|auto]. intros t r H. apply andb_true_iff in H. destruct H as [H1 H2]. split; [apply is0_term, H1|]. intros E. rewrite E in H2. discriminate. }
    { apply fr_tok. }
    + gb any. { apply (good_dirs _ _ false). auto. } { apply fr_dirs. } { apply good_ret. } { apply scr_ret; auto. }
    + eapply scr_bind; [apply scr_dirs|]. intros v. apply scr_ret. auto.
  - intros ts a r H. un. do 3 eexists. repeat (split; [eassumption|]). reflexivity.
Qed.
Lemma good_inline n selset : good_sels selset -> good any any (parse_inline fok n selset)
   (fun ts a r => exists c r1 ds r2 ss, g_opt_cond Any ts c r1 /\ g_dirs fok Any false LInlineFragment r1 ds r2 /\ g_selset fok Any r2 ss r /\ a = SInline c ds ss).
Proof.
  intros [_ Hs]. unfold parse_inline, peek1. apply good_peek. intros b. eapply good_mono.
  - apply (good_bind any any any _ _ (g_opt_cond Any) (fun c => gbind (g_dirs fok Any false LInlineFragment) (fun ds => gbind (g_selset fok Any) (fun ss => gret (SInline c ds ss))))).
    + destruct b; [|eapply good_mono; [apply good_ret|]; intros ts a r H; un; constructor]. eapply good_mono.
      * gb any. { apply good_cond'. } { apply fr_gcond. } { apply good_ret. } { apply scr_ret; auto. }
      * intros ts a r H. un. constructor. assumption.
    + apply fr_opt_cond.
    + left. auto.
    + intros c. gb any. { apply good_dirs. auto. } { apply fr_dirs. }
      * gb any. { apply Hs. auto. } { apply fr_selset. } { apply good_ret. } { apply scr_ret; auto. }
      * eapply (scr_bind any any); [apply scr_selset; auto|]. intros ss. apply scr_ret. auto.
    + intros c. eapply scr_bind; [apply scr_dirs|]. intros ds. eapply (scr_bind any any); [apply scr_selset; auto|]. intros ss. apply scr_ret. auto.
  - intros ts a r H. un. do 5 eexists. repeat (split; [eassumption|]). reflexivity.
Qed.
Lemma good_alias : good any any (t <- must0 KName ;; b <- skip1 KPunct ":" ;; if b then t2 <- must0 KName ;; pret (tlit t, tlit t2) else pret ([], tlit t)) g_alias.
Proof.
  eapply good_mono.
  - eapply (good_bind any any any _ _ _ (fun t ts a r => exists ts', (ts' = ts \/ pun ":" ts ts') /\ ((ts' = ts /\ a = ([], tlit t) /\ r = ts) \/ (pun ":" ts ts' /\ exists nm, name nm ts' r /\ a = (tlit t, nm))))).
    + apply (good_must0 _ _ _ (B "a")); auto.
    + apply fr_tok.
    + left. auto.
    + intros t. unfold skip1. eapply (good_skip any any _ _ _ (gbind (gtok KName (fun _ => True)) (fun t2 => gret (tlit t, tlit t2)))).
      * gb any. { apply (good_must0 _ _ _ (B "a")); auto. } { apply fr_tok. } { apply good_ret. } { apply scr_ret; auto. }
      * eapply good_mono; [apply good_ret|]. intros ts a r (-> & ->). exists ts. auto.
      * intros t' x a r E H. un. eexists. split; [right; apply is1_term, E|]. right. split; [apply is1_term, E|]. eexists. split; [eassumption|reflexivity].
    + intros t. exists [], ([], tlit t). split; [reflexivity|]. intros z _. split; [exact I|]. cbn. exists z. auto.
  - intros ts a r (t & r1 & (-> & H1 & _) & ts' & _ & [(-> & -> & ->)|(H2 & nm & H3 & ->)]).
    + apply al_none. exact H1.
    + eapply al_some; eassumption.
Qed.
Lemma scr_alias T : scr any T g_alias.
Proof. exists [at_name], ([], B "a"). split; [reflexivity|]. intros z _. split; [exact I|]. apply al_none. constructor. Qed.
Lemma bind_assoc3 {A1 A2 A3 A4} (m : P A1) (s : A1 -> P A2) (F : A1 -> A2 -> P A3) (R : A3 -> P A4) ts :
  pbind (pbind m (fun t => pbind (s t) (fun b => F t b))) R ts = pbind m (fun t => pbind (s t) (fun b => pbind (F t b) R)) ts.
Proof. unfold pbind. destruct (m ts) as [a r|e r|c]; [|reflexivity|reflexivity]. destruct (s a r) as [b r2|e r2|c]; reflexivity. Qed.
Lemma good_field n selset : good_sels selset -> good any any (parse_field fok n selset) (g_sel fok Any).
Proof.
  intros [Hs _]. eapply (good_ext _ _ _ (an <- (t <- must0 KName ;; b <- skip1 KPunct ":" ;; if b then t2 <- must0 KName ;; pret (tlit t, tlit t2) else pret ([], tlit t)) ;;
    args <- parse_arguments fok n ;; ds <- parse_directives fok n LField ;; ss <- selset true ;; pret (SField (fst an) (snd an) args ds ss))).
  { intros ts. symmetry. apply (bind_assoc3 _ _ (fun t (b : bool) => if b then t2 <- must0 KName ;; pret (tlit t, tlit t2) else pret ([], tlit t))). }
  eapply good_mono.
  - gb any. { apply good_alias. } { apply fr_alias. }
    + gb any. { apply (good_args _ _ false). } { apply fr_args. }
      * gb any. { apply (good_dirs _ _ false). auto. } { apply fr_dirs. }
        -- gb any. { apply Hs. } { apply fr_opt_selset. } { apply good_ret. } { apply scr_ret; auto. }
        -- eapply scr_bind; [apply scr_opt_selset|]. intros ss. apply scr_ret. auto.
      * eapply scr_bind; [apply scr_dirs|]. intros ds. eapply scr_bind; [apply scr_opt_selset|]. intros ss. apply scr_ret. auto.
    + eapply scr_bind; [apply scr_args|]. intros args. eapply scr_bind; [apply scr_dirs|]. intros ds. eapply scr_bind; [apply scr_opt_selset|]. intros ss. apply scr_ret. auto.
  - intros ts a r H. un. match goal with H : g_alias _ ?p _ |- _ => destruct p end. eapply sel_field; eassumption.
Qed.
Lemma good_selection n selset : good_sels selset -> good any any (parse_selection fok n selset) (g_sel fok Any).
Proof.
  intros Hs. unfold parse_selection, skip1. eapply (good_skip any any _ _ _ (fun ts a r => (exists nm r1 ds, name nm ts r1 /\ nm <> B "on" /\ g_dirs fok Any false LFragmentSpread r1 ds r /\ a = SSpread nm ds) \/
     (exists c r1 ds r2 ss, g_opt_cond Any ts c r1 /\ g_dirs fok Any false LInlineFragment r1 ds r2 /\ g_selset fok Any r2 ss r /\ a = SInline c ds ss))).
  - set (f := fun t => is0 KName t && negb (beqb (tlit t) (B "on"))).
    eapply (good_ext _ _ _ (s <- peek f ;; if s then t <- must f (expected KName []) ;; ds <- parse_directives fok n LFragmentSpread ;; pret (SSpread (tlit t) ds) else parse_inline fok n selset)).
    { intros [|t ts]; [reflexivity|]. unfold peek, pbind at 1 2 3 4. cbn [tok]. unfold pret at 1 3. cbv iota. destruct (f t) eqn:E; [|reflexivity]. unfold parse_spread, must0, must, pbind. cbn [tok]. unfold f in *. apply andb_true_iff in E. destruct E as [E1 E2]. unfold pret. cbn [tok]. rewrite E1, E2. reflexivity. }
    apply good_peek. intros [|].
    + eapply good_mono; [apply good_spread|]. intros ts a r H. left. exact H.
    + eapply good_mono; [apply (good_inline n selset Hs)|]. intros ts a r H. right. exact H.
  - apply good_field, Hs.
  - intros t x a r E [(nm & r1 & ds & H1 & H2 & H3 & ->)|(c & r1 & ds & r2 & ss & H1 & H2 & H3 & ->)]; [eapply sel_spread|eapply sel_inline]; try eassumption; apply is1_term, E.
Qed.
Lemma good_selset n : good_sels (parse_selset fok n).
Proof.
  induction n as [|n IH]; [split; intros; intros ts; exact I|]. assert (Hb : good any any (ss <- do_loop n (parse_selection fok n (parse_selset fok n)) (at_close "}") ;; must1 KPunct "}" ;;; pret ss) (closed "}" (many1 (g_sel fok Any)))).
  { apply (good_do any); [apply good_selection, IH|apply fr_sel|auto|apply peeky_close]. }
  assert (Hc : forall t x a r, is1 KPunct (B "{") t = true -> closed "}" (many1 (g_sel fok Any)) x a r -> g_selset fok Any (t :: x) a r).
  { intros t x a r E (r1 & (H1 & H2) & H3). eapply ss_intro; [apply is1_term, E|exact H1|exact H2|exact H3]. }
  split; intros T0; [|intros F]; cbn [parse_selset]; unfold skip1 at 1; eapply (good_skip T0 any); try exact Hb.
  - eapply good_mono; [apply good_ret|]. intros ts a r H. un. constructor.
  - intros. apply os_some. eapply Hc; eassumption.
  - apply good_fail, scr_selset, F.
  - exact Hc.
Qed.
End Viable.
