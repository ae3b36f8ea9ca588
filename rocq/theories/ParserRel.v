(** * ParserRel: the parser looks at token kinds and literals only; positions are just copied into definitions. *)
From Verif Require Import Base Utf8 Lexer AST Parser.
Local Open Scope p_scope.

Definition same (t t' : token) : Prop := tkind t = tkind t' /\ tlit t = tlit t'.
(** the text of an Illegal token (a message) does not matter *)
Definition weak (t t' : token) : Prop := tkind t = tkind t' /\ (tkind t <> KIllegal -> tlit t = tlit t').
Definition prel {A} (RA : A -> A -> Prop) (p p' : P A) : Prop := forall ts ts', Forall2 weak ts ts' ->
  match p ts, p' ts' with
  | POk a r, POk a' r' => RA a a' /\ Forall2 weak r r'
  | PErr _ r, PErr _ r' => Forall2 weak r r'
  | PCrash c, PCrash c' => c = c'
  | _, _ => False
  end.

Lemma prel_bind {A C} (RA : A -> A -> Prop) (RC : C -> C -> Prop) m m' (k k' : A -> P C) :
  prel RA m m' -> (forall a a', RA a a' -> prel RC (k a) (k' a')) -> prel RC (pbind m k) (pbind m' k').
Proof.
  intros Hm Hk ts ts' H. unfold pbind. specialize (Hm ts ts' H). destruct (m ts), (m' ts'); try contradiction; try exact Hm.
  destruct Hm as [Ha Hr]. exact (Hk _ _ Ha _ _ Hr).
Qed.
Lemma prel_ret {A} (RA : A -> A -> Prop) a a' : RA a a' -> prel RA (pret a) (pret a').
Proof. intros Ha ts ts' H. split; assumption. Qed.
Lemma prel_fail {A} (RA : A -> A -> Prop) e e' : prel RA (pfail e) (pfail e').
Proof. intros ts ts' H. exact H. Qed.
Lemma prel_crash {A} (RA : A -> A -> Prop) c : prel RA (pcrash c) (pcrash c).
Proof. intros ts ts' H. reflexivity. Qed.
Lemma prel_tok : prel weak tok tok.
Proof. intros ts ts' H. inversion H; subst; [reflexivity|]. split; [assumption|constructor; assumption]. Qed.
Lemma prel_advance : prel eq advance advance.
Proof. intros ts ts' H. inversion H as [|? ? ? ? ? H1]; subst; [reflexivity|]. inversion H1; subst; [reflexivity|]. split; [reflexivity|constructor; assumption]. Qed.
Definition respects (p : token -> bool) : Prop := forall t t', weak t t' -> p t = p t'.
Definition legal (p : token -> bool) : Prop := forall t, p t = true -> tkind t <> KIllegal.
Lemma resp_is0 k : respects (is0 k). Proof. intros t t' [H _]. unfold is0. rewrite H. reflexivity. Qed.
Lemma kind_eqb_true k k' : kind_eqb k k' = true -> k = k'. Proof. destruct k, k'; (discriminate || reflexivity). Qed.
Lemma resp_is1 k l : k <> KIllegal -> respects (is1 k l).
Proof.
  intros Hk t t' [H H']. unfold is1. rewrite <- H. destruct (kind_eqb (tkind t) k) eqn:E; [|reflexivity].
  apply kind_eqb_true in E. rewrite H' by congruence. reflexivity.
Qed.
Lemma resp_isn k l : k <> KIllegal -> respects (isn k l).
Proof.
  intros Hk t t' [H H']. unfold isn. rewrite <- H. destruct (kind_eqb (tkind t) k) eqn:E; [|reflexivity].
  apply kind_eqb_true in E. rewrite H' by congruence. reflexivity.
Qed.
Lemma legal_is0 k : k <> KIllegal -> legal (is0 k). Proof. intros Hk t H. apply kind_eqb_true in H. congruence. Qed.
Lemma legal_is1 k l : k <> KIllegal -> legal (is1 k l).
Proof. intros Hk t H. apply andb_prop in H. destruct H as [H _]. apply kind_eqb_true in H. congruence. Qed.
Lemma legal_isn k l : k <> KIllegal -> legal (isn k l).
Proof. intros Hk t H. apply andb_prop in H. destruct H as [H _]. apply kind_eqb_true in H. congruence. Qed.
Lemma prel_perr {A} (RA : A -> A -> Prop) ws : prel RA (perr ws) (perr ws).
Proof. unfold perr. eapply prel_bind; [apply prel_tok|]. intros. apply prel_fail. Qed.
Lemma prel_peek p : respects p -> prel eq (peek p) (peek p).
Proof. intros Hp. unfold peek. eapply prel_bind; [apply prel_tok|]. intros t t' Ht. apply prel_ret. apply Hp. exact Ht. Qed.
Definition osame (o o' : option token) : Prop := match o, o' with Some t, Some t' => same t t' | None, None => True | _, _ => False end.
Lemma prel_consume p : legal p -> respects p -> prel osame (consume p) (consume p).
Proof.
  intros Hg Hp. unfold consume. eapply prel_bind; [apply prel_tok|]. intros t t' Ht. rewrite <- (Hp _ _ Ht). destruct (p t) eqn:E.
  - eapply prel_bind; [apply prel_advance|]. intros _ _ _. apply prel_ret. destruct Ht as [H1 H2]. split; [exact H1|]. apply H2, Hg, E.
  - apply prel_ret. exact I.
Qed.
Lemma prel_skip p : respects p -> prel eq (skip p) (skip p).
Proof.
  intros Hp. unfold skip. eapply prel_bind; [apply prel_tok|]. intros t t' Ht. rewrite (Hp _ _ Ht). destruct (p t').
  - eapply prel_bind; [apply prel_advance|]. intros _ _ _. apply prel_ret. reflexivity.
  - apply prel_ret. reflexivity.
Qed.
Lemma prel_must p w : legal p -> respects p -> prel same (must p w) (must p w).
Proof.
  intros Hg Hp. unfold must. eapply prel_bind; [apply prel_tok|]. intros t t' Ht. rewrite <- (Hp _ _ Ht). destruct (p t) eqn:E.
  - eapply prel_bind; [apply prel_advance|]. intros _ _ _. apply prel_ret. destruct Ht as [H1 H2]. split; [exact H1|]. apply H2, Hg, E.
  - apply prel_fail.
Qed.
Lemma prel_loop {A} n close close' (body body' : P A) : prel eq close close' -> prel eq body body' ->
  prel eq (loop_until n close body) (loop_until n close' body').
Proof.
  intros Hc Hb. induction n as [|n IH]; cbn [loop_until]; [apply prel_crash|].
  eapply prel_bind; [exact Hc|]. intros c c' <-. destruct c; [apply prel_ret; reflexivity|].
  eapply prel_bind; [exact Hb|]. intros a a' <-. eapply prel_bind; [exact IH|]. intros l l' <-. apply prel_ret. reflexivity.
Qed.
Lemma prel_do {A} n (body body' : P A) fin fin' : prel eq body body' -> prel eq fin fin' ->
  prel eq (do_loop n body fin) (do_loop n body' fin').
Proof.
  intros Hb Hc. induction n as [|n IH]; cbn [do_loop]; [apply prel_crash|].
  eapply prel_bind; [exact Hb|]. intros a a' <-. eapply prel_bind; [exact Hc|]. intros c c' <-.
  destruct c; [apply prel_ret; reflexivity|]. eapply prel_bind; [exact IH|]. intros l l' <-. apply prel_ret. reflexivity.
Qed.
Lemma prel_if {A} (RA : A -> A -> Prop) (b : bool) p q p' q' : prel RA p p' -> prel RA q q' ->
  prel RA (if b then p else q) (if b then p' else q').
Proof. destruct b; auto. Qed.

Lemma prel_need k l : k <> KIllegal -> prel eq (need k l) (need k l).
Proof.
  intros Hk. unfold need. eapply prel_bind; [apply prel_skip, resp_is1, Hk|]. intros b b' <-. apply prel_if; [apply prel_ret; reflexivity|apply prel_perr].
Qed.
Lemma prel_not m m' : prel eq m m' -> prel eq (pnot m) (pnot m').
Proof. intros H. unfold pnot. eapply prel_bind; [exact H|]. intros b b' <-. apply prel_ret. reflexivity. Qed.
Ltac pstep := match goal with
  | |- prel _ (pbind (if _ then _ else _) _) _ => apply (prel_bind eq)
  | |- prel _ (pbind (pret _) _) _ => apply (prel_bind eq)
  | |- prel _ (pbind _ _) _ => eapply prel_bind
  | |- prel _ (pret _) _ => apply prel_ret
  | |- prel _ (pfail _) _ => apply prel_fail
  | |- prel _ (pcrash _) _ => apply prel_crash
  | |- prel _ (perr _) _ => apply prel_perr
  | |- prel _ tok _ => apply prel_tok
  | |- prel _ (skip1 _ _) _ => apply prel_skip, resp_is1; discriminate
  | |- prel _ (peek1 _ _) _ => apply prel_peek, resp_is1; discriminate
  | |- prel _ (peek0 _) _ => apply prel_peek, resp_is0
  | |- prel _ (peekn _ _) _ => apply prel_peek, resp_isn; discriminate
  | |- prel _ (must0 _) _ => apply prel_must; [apply legal_is0; discriminate|apply resp_is0]
  | |- prel _ (must1 _ _) _ => apply prel_must; [apply legal_is1; discriminate|apply resp_is1; discriminate]
  | |- prel _ (mustn _ _) _ => apply prel_must; [apply legal_isn; discriminate|apply resp_isn; discriminate]
  | |- prel _ (consume0 _) _ => apply prel_consume; [apply legal_is0; discriminate|apply resp_is0]
  | |- prel _ (consume (isn _ _)) _ => apply prel_consume; [apply legal_isn; discriminate|apply resp_isn; discriminate]
  | |- prel _ (need _ _) _ => apply prel_need; discriminate
  | |- prel _ (pnot _) _ => apply prel_not
  | |- prel _ (at_close _) _ => unfold at_close
  | |- prel _ (loop_until _ _ _) _ => apply prel_loop
  | |- prel _ (do_loop _ _ _) _ => apply prel_do
  | |- prel _ (if ?b then _ else _) _ => apply prel_if
  | |- forall a a', a = a' -> _ => intros ? ? <-
  | |- forall a a', same a a' -> _ => let t := fresh "t" in let t' := fresh "t" in let E := fresh "E" in
      intros t t' [? E]; rewrite <- ?E; cbv beta iota
  | |- forall a a', osame a a' -> _ => let t := fresh "t" in let t' := fresh "t" in let E := fresh "E" in
      intros [t|] [t'|] E; try contradiction; [destruct E as [? E]; rewrite <- ?E|clear E]; cbv beta iota
  | |- _ => eassumption
  | |- _ = _ => reflexivity
  end.

Section Rel.
Variable fok : bytes -> bool.
Ltac ps := repeat pstep.

Lemma rel_type n : prel eq (parse_type n) (parse_type n).
Proof.
  induction n as [|n IH]; cbn [parse_type]; [apply prel_crash|]. pstep; [pstep|]. pstep. destruct a; [|ps].
  intros ts ts' H. specialize (IH ts ts' H). destruct (parse_type n ts), (parse_type n ts'); try contradiction; try exact IH.
  - destruct IH as [<- Hr]. revert r r0 Hr. change (prel eq (must1 KPunct "]" ;;; nn <- skip1 KPunct "!" ;; pret (TList a nn)) (must1 KPunct "]" ;;; nn <- skip1 KPunct "!" ;; pret (TList a nn))). ps.
  - split; [reflexivity|exact IH].
Qed.
Hint Resolve rel_type : core.
Lemma rel_value n : prel eq (parse_value fok n) (parse_value fok n).
Proof.
  induction n as [|n IH]; cbn [parse_value]; [apply prel_crash|]. ps.
  - destruct (atoi (tlit t)); ps.
  - unfold parse_object_field. ps.
Qed.
Lemma rel_default n : prel eq (parse_default fok n) (parse_default fok n).
Proof. pose proof (rel_value n). unfold parse_default. ps. Qed.
Lemma rel_args n : prel eq (parse_arguments fok n) (parse_arguments fok n).
Proof. pose proof (rel_value n). unfold parse_arguments. ps. unfold parse_argument. ps. Qed.
Lemma rel_dirs n l : prel eq (parse_directives fok n l) (parse_directives fok n l).
Proof. pose proof (rel_args n). unfold parse_directives. ps. unfold parse_directive. ps. Qed.
Lemma rel_named_only t : prel eq (named_only t) (named_only t).
Proof. destruct t; cbn; ps. Qed.
Lemma rel_cond n : prel eq (parse_type_condition n) (parse_type_condition n).
Proof. pose proof (rel_type n). unfold parse_type_condition. ps. apply rel_named_only. Qed.
Lemma rel_selset n : forall o, prel eq (parse_selset fok n o) (parse_selset fok n o).
Proof.
  induction n as [|n IH]; intros o; cbn [parse_selset]; [apply prel_crash|]. pose proof (rel_args n). pose proof (rel_cond n).
  assert (Hp : prel eq (peek (fun t => is0 KName t && negb (beqb (tlit t) (B "on")))) (peek (fun t => is0 KName t && negb (beqb (tlit t) (B "on"))))).
  { apply prel_peek. intros t t' [H1 H2]. unfold is0. rewrite <- H1. destruct (tkind t); cbn; try reflexivity. rewrite H2 by discriminate. reflexivity. }
  repeat (first [exact Hp | apply rel_dirs | apply IH | pstep | progress unfold parse_selection, parse_spread, parse_inline, parse_field]).
Qed.
Lemma rel_vardefs n : prel eq (parse_vardefs fok n) (parse_vardefs fok n).
Proof. pose proof (rel_type n). pose proof (rel_default n). unfold parse_vardefs. ps. unfold parse_vardef. ps. Qed.
Lemma rel_optype : prel eq parse_optype parse_optype.
Proof. unfold parse_optype. ps. Qed.
Lemma rel_operation n b : prel eq (parse_operation fok n b) (parse_operation fok n b).
Proof.
  pose proof rel_optype. pose proof (rel_vardefs n). unfold parse_operation. ps; try apply rel_selset; ps; try apply rel_dirs; ps; try apply rel_selset; ps.
Qed.
Lemma rel_fragment n : prel eq (parse_fragment fok n) (parse_fragment fok n).
Proof. pose proof (rel_cond n). unfold parse_fragment. ps; try apply rel_dirs; ps; try apply rel_selset; ps. Qed.
Lemma rel_desc : prel eq parse_desc parse_desc.
Proof. unfold parse_desc. ps. Qed.
Lemma rel_ivdef n l : prel eq (parse_ivdef fok n l) (parse_ivdef fok n l).
Proof. pose proof rel_desc. pose proof (rel_type n). pose proof (rel_default n). pose proof (rel_dirs n l). unfold parse_ivdef. ps. Qed.
Lemma rel_argdefs n : prel eq (parse_argdefs fok n) (parse_argdefs fok n).
Proof. pose proof (rel_ivdef n LArgumentDefinition). unfold parse_argdefs. ps. Qed.
Lemma rel_fielddefs n : prel eq (parse_fielddefs fok n) (parse_fielddefs fok n).
Proof.
  pose proof rel_desc. pose proof (rel_type n). pose proof (rel_argdefs n). pose proof (rel_dirs n LFieldDefinition).
  unfold parse_fielddefs. ps. unfold parse_fielddef. ps.
Qed.
Lemma rel_enumvals n : prel eq (parse_enumvals fok n) (parse_enumvals fok n).
Proof. pose proof rel_desc. pose proof (rel_dirs n LEnumValue). unfold parse_enumvals. ps. unfold parse_enumval. ps. Qed.
Lemma rel_inputs n : prel eq (parse_inputs fok n) (parse_inputs fok n).
Proof. pose proof (rel_ivdef n LInputFieldDefinition). unfold parse_inputs. ps. Qed.
Lemma rel_implements n : prel eq (parse_implements n) (parse_implements n).
Proof. pose proof (rel_type n). unfold parse_implements. ps. Qed.
Lemma rel_members n : prel eq (parse_members n) (parse_members n).
Proof. pose proof (rel_type n). unfold parse_members. ps. Qed.
Lemma rel_typebody n d : prel eq (parse_typebody fok n d) (parse_typebody fok n d).
Proof.
  pose proof (rel_implements n). pose proof (rel_members n). pose proof (rel_inputs n). pose proof (rel_enumvals n). pose proof (rel_fielddefs n).
  unfold parse_typebody. ps. destruct (kind_of_kw (tlit t)) as [k|]; [|ps]. pose proof (rel_dirs n (kind_location k)). destruct k; ps.
Qed.
Lemma rel_optypedefs n : prel eq (parse_optypedefs n) (parse_optypedefs n).
Proof. pose proof rel_optype. pose proof (rel_type n). unfold parse_optypedefs. ps. unfold parse_optypedef. ps. apply rel_named_only. ps. Qed.
Lemma rel_schemadef n : prel eq (parse_schemadef fok n) (parse_schemadef fok n).
Proof. pose proof (rel_optypedefs n). pose proof (rel_dirs n LSchema). unfold parse_schemadef. ps. Qed.
Lemma rel_schemaext n : prel eq (parse_schemaext fok n) (parse_schemaext fok n).
Proof. pose proof (rel_optypedefs n). pose proof (rel_dirs n LSchema). unfold parse_schemaext. ps. match goal with |- prel _ (match ?x with _ => _ end) _ => destruct x end; [match goal with |- prel _ (match ?x with _ => _ end) _ => destruct x end|]; ps. Qed.
Lemma rel_dirlocs n : prel eq (parse_dirlocs n) (parse_dirlocs n).
Proof.
  unfold parse_dirlocs. ps. intros ts ts' H. unfold parse_dirloc. pose proof (prel_must _ (expected KName location_names) (legal_isn KName location_names ltac:(discriminate)) (resp_isn KName location_names ltac:(discriminate)) ts ts' H) as Hm.
  unfold mustn. destruct (must _ _ ts), (must _ _ ts'); try contradiction; try exact Hm.
  - destruct Hm as [[_ E] Hr]. rewrite E. split; [reflexivity|exact Hr].
  - exact (prel_perr eq _ _ _ Hm).
Qed.
Lemma rel_dirdef n d : prel eq (parse_dirdef fok n d) (parse_dirdef fok n d).
Proof. pose proof (rel_argdefs n). pose proof (rel_dirlocs n). unfold parse_dirdef. ps. Qed.
Lemma rel_tsdef n d : prel eq (parse_tsdef fok n d) (parse_tsdef fok n d).
Proof. pose proof (rel_schemadef n). pose proof (rel_dirdef n d). pose proof (rel_typebody n d). unfold parse_tsdef. ps. Qed.
Lemma rel_tsext n : prel eq (parse_tsext fok n) (parse_tsext fok n).
Proof. pose proof (rel_schemaext n). pose proof (rel_typebody n []). unfold parse_tsext. ps. Qed.
Lemma rel_body n : prel eq (parse_body fok n) (parse_body fok n).
Proof.
  pose proof (rel_fragment n). pose proof (rel_tsext n). pose proof rel_desc.
  unfold parse_body. pstep; [ps|]. intros t t' Ht.
  rewrite <- (resp_isn KName [B "query"; B "mutation"; B "subscription"] ltac:(discriminate) _ _ Ht), <- !(resp_is1 KPunct _ ltac:(discriminate) _ _ Ht), <- !(resp_is1 KName _ ltac:(discriminate) _ _ Ht).
  cbv zeta. destruct Ht as [_ E].
  destruct (isn KName [B "query"; B "mutation"; B "subscription"] t || is1 KPunct (B "{") t) eqn:Eo.
  - rewrite <- E. { pstep; [apply rel_operation|]. ps. }
    apply orb_prop in Eo. destruct Eo as [Eo|Eo]; [eapply legal_isn|eapply legal_is1]; try eassumption; discriminate.
  - ps; try apply rel_tsdef; ps.
Qed.

Definition same_def (d d' : definition) : Prop := def_body d = def_body d'.
Definition osame_def (o o' : option definition) : Prop :=
  match o, o' with Some d, Some d' => same_def d d' | None, None => True | _, _ => False end.
Lemma rel_definition n : prel osame_def (parse_definition fok n) (parse_definition fok n).
Proof.
  unfold parse_definition. pstep; [ps|]. intros t t' _. pstep; [apply rel_body|]. intros o o' <-. apply prel_ret.
  destruct o; cbn; [reflexivity|exact I].
Qed.
Lemma rel_loop n m : forall c, prel (fun x x' => Forall2 same_def (fst x) (fst x') /\ snd x = snd x') (parse_loop fok n m c) (parse_loop fok n m c).
Proof.
  induction m as [|m IH]; intros c; cbn [parse_loop]; [apply prel_crash|].
  pstep; [apply rel_definition|]. intros [d|] [d'|] Hd; try contradiction; [|apply prel_crash].
  cbn in Hd. unfold same_def in Hd. rewrite <- Hd. cbv zeta. pstep; [ps|]. pstep. apply prel_if; [apply prel_perr|].
  pstep; [ps|]. pstep. apply prel_if.
  - apply prel_ret. split; [constructor; [exact Hd|constructor]|reflexivity].
  - pstep; [apply IH|]. intros x x' [H1 H2]. apply prel_ret. split; [constructor; [exact Hd|exact H1]|exact H2].
Qed.

Theorem parse_positions ts ts' : Forall2 weak ts ts' ->
  match parse_tokens fok ts, parse_tokens fok ts' with
  | POk d _, POk d' _ => map def_body (doc_defs d) = map def_body (doc_defs d') /\
      n_ops d = n_ops d' /\ n_frags d = n_frags d' /\ n_dirdefs d = n_dirdefs d' /\ n_schemas d = n_schemas d' /\
      n_types d = n_types d' /\ n_schemaexts d = n_schemaexts d' /\ n_typeexts d = n_typeexts d'
  | PErr _ _, PErr _ _ => True
  | PCrash c, PCrash c' => c = c'
  | _, _ => False
  end.
Proof.
  intros H. unfold parse_tokens. assert (Hlen : List.length ts' = List.length ts) by (clear -H; induction H; cbn; congruence). rewrite Hlen.
  pose proof (rel_loop (List.length ts) (List.length ts) (mkC 0 0 0 0 0 0 []) ts ts' H) as Hr. unfold pbind.
  destruct (parse_loop fok _ _ _ ts) as [x r|e r|c], (parse_loop fok _ _ _ ts') as [x' r'|e' r'|c']; try contradiction; try exact Hr; try exact I.
  destruct Hr as [[H1 H2] _]. destruct x as [ds c], x' as [ds' c']. cbn in H1, H2. subst c'. destruct c. cbn.
  split; [|auto 10]. induction H1; cbn; [reflexivity|]. unfold same_def in *. congruence.
Qed.
End Rel.
