(** * SchemaProofs: the errors of schema validation, its termination and its crashes. *)
From Verif Require Import Base Utf8 Utf8Proofs AST Walker Context Rules CtxProofs SdlProofs LexSpec Utils SchemaValidate SchemaSpec ValidateProofs.

(** ** Errors *)
Definition outs (v : V) (Q : err -> Prop) : Prop := forall es es', v es = GOk es' -> forall e, In e es' <-> Q e \/ In e es.
Lemma outs_iff v (Q R : err -> Prop) : outs v Q -> (forall e, Q e <-> R e) -> outs v R.
Proof. intros H E es es' Hv e. rewrite <- E. apply H. exact Hv. Qed.
Lemma outs_ret : outs vret (fun _ => False).
Proof. intros es es' H e. injection H as ->. tauto. Qed.
Lemma outs_add x : outs (vadd x) (fun e => e = x).
Proof. intros es es' H e. injection H as <-. cbn [In]. intuition congruence. Qed.
Lemma outs_if b x : outs (vif b x) (fun e => b = true /\ e = x).
Proof. destruct b; [eapply outs_iff; [apply outs_add|]; intros; tauto|]. eapply outs_iff; [apply outs_ret|]. intros e. intuition congruence. Qed.
Lemma outs_seq a b Q R : outs a Q -> outs b R -> outs (vseq a b) (fun e => Q e \/ R e).
Proof. intros Ha Hb es es' H e. unfold vseq in H. destruct (a es) as [es1| |] eqn:E; try discriminate. rewrite (Hb _ _ H), (Ha _ _ E). tauto. Qed.
Lemma outs_test g k Q : (forall b, g = GOk b -> outs (k b) Q) -> outs (vtest g k) Q.
Proof. intros H es es' E. unfold vtest in E. destruct g as [b| |]; try discriminate. exact (H b eq_refl es es' E). Qed.
Lemma outs_for {X} (f : X -> V) Q l : (forall x, In x l -> outs (f x) (Q x)) -> outs (vfor f l) (fun e => exists x, In x l /\ Q x e).
Proof.
  induction l as [|x l IH]; intros H; cbn [vfor].
  - eapply outs_iff; [apply outs_ret|]. intros e. split; [tauto|intros (x & [] & _)].
  - eapply outs_iff; [apply outs_seq; [apply H; left; reflexivity|apply IH; intros y Hy; apply H; right; exact Hy]|].
    intros e. cbn [In]. split; [intros [H1|(y & Hy & H1)]; eauto|intros (y & [->|Hy] & H1); eauto].
Qed.
Lemma outs_none v : v = (fun _ => GPanic) -> forall Q, outs v Q.
Proof. intros -> Q es es' H. discriminate. Qed.

(** *** Names *)
Lemma letter_rune_spec r : letter_rune r = true <-> letter r. Proof. unfold letter_rune, letter. lia. Qed.
Lemma digit_rune_spec r : digit_rune r = true <-> digit r. Proof. unfold digit_rune, digit. lia. Qed.
Lemma decode_ascii b t : (zb b < 128)%Z -> decode_rune (b :: t) = (zb b, 1).
Proof. intros H. unfold decode_rune. replace (zb b <? 128)%Z with true by lia. reflexivity. Qed.
Lemma name_runes_spec p : forall fuel i, List.length p <= fuel ->
  (name_runes fuel i p = true <-> match p with [] => True | c :: r => (letter (zb c) \/ 0 < i /\ digit (zb c)) /\ Forall (fun b => letter (zb b) \/ digit (zb b)) r end).
Proof.
  induction p as [|c r IH]; intros fuel i Hf; [destruct fuel; cbn; tauto|]. destruct fuel as [|fuel]; [cbn in Hf; lia|]. cbn [name_runes].
  destruct (Z_lt_ge_dec (zb c) 128) as [H|H].
  - rewrite decode_ascii by exact H. cbn [skipn]. destruct (letter_rune (zb c) || (0 <? i) && digit_rune (zb c)) eqn:E.
    + rewrite (IH fuel (i + 1)) by (cbn in Hf; lia). rewrite orb_true_iff, andb_true_iff, letter_rune_spec, digit_rune_spec, Nat.ltb_lt in E.
      split.
      * intros H1. split; [exact E|]. destruct r as [|d r]; [constructor|]. destruct H1 as [[H1|[_ H1]] H2]; constructor; tauto.
      * intros [_ H1]. destruct r as [|d r]; [exact I|]. apply Forall_cons_iff in H1. destruct H1 as [H3 H4]. split; [|exact H4]. destruct H3; [left; assumption|right; split; [lia|assumption]].
    + split; [discriminate|]. intros [H1 _]. rewrite <- letter_rune_spec, <- digit_rune_spec, <- Nat.ltb_lt, <- andb_true_iff, <- orb_true_iff in H1. congruence.
  - destruct (decode_rune_ge c r) as [G _]; [lia|]. destruct (decode_rune (c :: r)) as [z w]. cbn [fst] in G.
    replace (letter_rune z) with false by (symmetry; apply not_true_iff_false; rewrite letter_rune_spec; unfold letter; lia).
    replace (digit_rune z) with false by (symmetry; apply not_true_iff_false; rewrite digit_rune_spec; unfold digit; lia). rewrite andb_false_r. cbn [orb]. split; [discriminate|].
    unfold letter, digit. intros [[H1|[_ H1]] _]; lia.
Qed.
Lemma name_runes_proper n : n <> [] -> (name_runes (List.length n) 0 n = true <-> proper_name n).
Proof.
  intros Hn. rewrite name_runes_spec by lia. unfold proper_name. destruct n as [|c r]; [congruence|]. split.
  - intros [[H|[H _]] H1]; [|lia]. eauto.
  - intros (c' & r' & E & H & H1). injection E as <- <-. auto.
Qed.
Lemma reserved_spec n : reserved n <-> match n with c :: d :: _ => Ascii.eqb c "_"%char = true /\ Ascii.eqb d "_"%char = true | _ => False end.
Proof.
  unfold reserved. split.
  - intros (r & ->). cbn. auto.
  - destruct n as [|c [|d r]]; try tauto. rewrite !Ascii.eqb_eq. intros [-> ->]. exists r. reflexivity.
Qed.
Lemma reserved_test n : (match n with [] => false | c :: r => Ascii.eqb c "_"%char && match r with d :: _ => Ascii.eqb d "_"%char | [] => false end end) = true <-> reserved n.
Proof. rewrite reserved_spec. destruct n as [|c [|d r]]; rewrite ?andb_true_iff; [intuition congruence| |tauto]. split; [intros [_ H]; discriminate|tauto]. Qed.
Lemma outs_name n : outs (validate_name n) (name_error n).
Proof.
  pose proof (reserved_test n) as R. pose proof (name_runes_proper n) as Pn. unfold validate_name, name_error. destruct n as [|c r].
  - eapply outs_iff; [apply outs_add|]. intros e. assert (~ reserved []) by (intros (r & H); discriminate). assert (~ proper_name []) by (intros (? & ? & H1 & _); discriminate). tauto.
  - specialize (Pn ltac:(discriminate)). destruct (Ascii.eqb c "_"%char && _) eqn:E1.
    + assert (X : reserved (c :: r)) by (apply R; reflexivity). eapply outs_iff; [apply outs_add|]. intros e. tauto.
    + assert (X : ~ reserved (c :: r)) by (rewrite <- R; congruence). destruct (name_runes _ _ _) eqn:E2.
      * assert (proper_name (c :: r)) by (apply Pn; reflexivity). eapply outs_iff; [apply outs_ret|]. intros e. tauto.
      * assert (~ proper_name (c :: r)) by (rewrite <- Pn; congruence). eapply outs_iff; [apply outs_add|]. intros e. tauto.
Qed.
Lemma introspection_spec n : is_introspection n = true <-> introspection_type n.
Proof. unfold is_introspection, introspection_type. fold introspection_names. rewrite existsb_exists. split; [intros (x & H & E); apply beqb_true in E; subst; exact H|]. intros H. exists n. split; [exact H|apply beqb_refl]. Qed.

(** *** Repeated names *)
Lemma seen_spec x seen : existsb (beqb x) seen = true <-> In x seen.
Proof. rewrite existsb_exists. split; [intros (y & H & E); apply beqb_true in E; subst; exact H|]. intros H. exists x. split; [exact H|apply beqb_refl]. Qed.
Lemma repeated_cons {X} (x y : X) l : repeated x (y :: l) <-> (x = y /\ In x l) \/ repeated x l.
Proof.
  unfold repeated. split.
  - intros (a & b & c & E). destruct a as [|z a]; cbn in E; injection E as E1 E2.
    + left. subst. split; [reflexivity|]. apply in_or_app. right. left. reflexivity.
    + right. eauto.
  - intros [[-> H]|(a & b & c & ->)]; [apply in_split in H; destruct H as (b & c & ->); exists [], b, c; reflexivity|exists (y :: a), b, c; reflexivity].
Qed.
(** [again seen x l]: an element of [l] that was seen before it. *)
Definition again {X} (seen : list X) (x : X) (l : list X) : Prop := In x l /\ In x seen \/ repeated x l.
Lemma again_cons {X} (seen : list X) x y l : again seen x (y :: l) <-> x = y /\ In y seen \/ again (y :: seen) x l.
Proof. unfold again. rewrite repeated_cons. cbn [In]. intuition (subst; auto). Qed.
Lemma again_skip {X} (seen : list X) x y l : In y seen -> (again seen x (y :: l) <-> x = y \/ again seen x l).
Proof. intros H. unfold again. rewrite repeated_cons. cbn [In]. intuition (subst; auto). Qed.
Lemma again_nil {X} (x : X) l : again [] x l <-> repeated x l.
Proof. unfold again. cbn [In]. tauto. Qed.

Lemma outs_dirargs d l : forall seen, outs (directive_args d seen l) (fun e =>
  (exists a, In a l /\ ~ In (i_name a) seen /\ name_error (i_name a) e) \/
  (exists a, again seen a (map i_name l) /\ e = EMsg (B "Argument @" ++ d ++ B "(" ++ a ++ B ":) can only be defined once."))).
Proof.
  induction l as [|a l IH]; intros seen; cbn [directive_args map].
  - eapply outs_iff; [apply outs_ret|]. intros e. split; [tauto|]. intros [(a & [] & _)|(a & [[[] _]|(x & y & z & H)] & _)]. destruct x; discriminate.
  - destruct (existsb (beqb (i_name a)) seen) eqn:E.
    + apply seen_spec in E. eapply outs_iff; [apply outs_seq; [apply outs_add|apply IH]|]. intros e. cbn [In]. split.
      * intros [->|[(b & H & H1)|(b & H & ->)]].
        -- right. exists (i_name a). rewrite again_skip by exact E. auto.
        -- left. exists b. auto.
        -- right. exists b. rewrite again_skip by exact E. auto.
      * intros [(b & [->|H] & H1)|(b & H & ->)]; [tauto|right; left; eauto|]. rewrite again_skip in H by exact E. destruct H as [->|H]; [left; reflexivity|right; right; eauto].
    + apply not_true_iff_false in E. rewrite seen_spec in E. eapply outs_iff; [apply outs_seq; [apply outs_name|apply IH]|]. intros e. cbn [In]. split.
      * intros [H|[(b & H & H1)|(b & H & ->)]].
        -- left. exists a. auto.
        -- left. exists b. cbn [In] in H1. tauto.
        -- right. exists b. rewrite again_cons. auto.
      * intros [(b & [->|H] & H1 & H2)|(b & H & ->)]; [tauto| |].
        -- destruct (list_eq_dec ascii_dec (i_name a) (i_name b)) as [Eq|Ne]; [left; rewrite Eq; exact H2|]. right. left. exists b. cbn [In]. tauto.
        -- rewrite again_cons in H. destruct H as [[-> H]|H]; [tauto|right; right; eauto].
Qed.
Lemma outs_directives od s : visits_map od (sc_dirs s) -> outs (validate_directives od) (fun e =>
  (exists n d, mget n (sc_dirs s) = Some d /\ (name_error n e \/ exists a, In a (dd_args d) /\ name_error (i_name a) e)) \/
  (exists n d a, mget n (sc_dirs s) = Some d /\ repeated a (map i_name (dd_args d)) /\ e = EMsg (B "Argument @" ++ n ++ B "(" ++ a ++ B ":) can only be defined once."))).
Proof.
  intros [_ O]. eapply outs_iff; [apply (outs_for _ (fun p e => name_error (fst p) e \/ ((exists a, In a (dd_args (snd p)) /\ ~ In (i_name a) [] /\ name_error (i_name a) e) \/
    (exists a, again [] a (map i_name (dd_args (snd p))) /\ e = EMsg (B "Argument @" ++ fst p ++ B "(" ++ a ++ B ":) can only be defined once."))))); intros p _; apply outs_seq; [apply outs_name|apply outs_dirargs]|].
  intros e. split.
  - intros ((n & d) & Hp & H). cbn [fst snd] in H. apply O in Hp. destruct H as [H|[(a & H & _ & H1)|(a & H & ->)]]; [left; eauto 6|left; eauto 8|]. rewrite again_nil in H. right. eauto 8.
  - intros [(n & d & E & [H|(a & H & H1)])|(n & d & a & E & H & ->)]; apply O in E; exists (n, d); (split; [exact E|]); cbn [fst snd]; [tauto| |].
    + right. left. exists a. cbn [In]. tauto.
    + right. right. exists a. rewrite again_nil. auto.
Qed.

(** *** Fields *)
Lemma is_input_spec s t b : is_input s t = GOk b -> (b = true <-> kind_among s input_kinds t).
Proof.
  unfold kind_among. induction t as [n nn|t IH nn|]; cbn [is_input innermost]; [|exact IH|discriminate]. intros E. injection E as <-. rewrite has_kind_spec. fold input_kinds.
  split; [intros (k & E & H); eauto|intros (n' & k & E1 & E & H)]. injection E1 as ->. eauto.
Qed.
Lemma is_output_spec s t b : is_output s t = GOk b -> (b = true <-> kind_among s output_kinds t).
Proof.
  unfold kind_among. induction t as [n nn|t IH nn|]; cbn [is_output innermost]; [|exact IH|discriminate]. intros E. injection E as <-. rewrite has_kind_spec. fold output_kinds.
  split; [intros (k & E & H); eauto|intros (n' & k & E1 & E & H)]. injection E1 as ->. eauto.
Qed.
Lemma outs_kind g (Q : Prop) x : (forall b, g = GOk b -> (b = true <-> Q)) -> outs (vtest g (fun b => vif (negb b) x)) (fun e => ~ Q /\ e = x).
Proof. intros H. apply outs_test. intros b Eb. specialize (H b Eb). eapply outs_iff; [apply outs_if|]. intros e. destruct b; cbn [negb]; intuition congruence. Qed.
Lemma outs_fieldargs s tf l : forall seen, outs (field_args s tf seen l) (fun e =>
  (exists a, In a l /\ name_error (i_name a) e) \/
  (exists a, again seen a (map i_name l) /\ e = EMsg (B "Field argument " ++ tf ++ B "(" ++ a ++ B ":) can only be defined once.")) \/
  (exists a, In a l /\ ~ kind_among s input_kinds (i_type a) /\ e = EMsg (B "The type of " ++ tf ++ B "(" ++ i_name a ++ B ":) must be Input Type."))).
Proof.
  induction l as [|a l IH]; intros seen; cbn [field_args map].
  - eapply outs_iff; [apply outs_ret|]. intros e. split; [tauto|]. intros [(a & [] & _)|[(a & [[[] _]|(x & y & z & H)] & _)|(a & [] & _)]]. destruct x; discriminate.
  - eapply outs_iff; [apply outs_seq; [apply outs_name|apply outs_seq; [apply outs_if|apply outs_seq; [apply outs_kind, is_input_spec|apply IH]]]|].
    intros e. cbn [In]. rewrite seen_spec. split.
    + intros [H|[[H ->]|[[H ->]|[(b & H & H1)|[(b & H & ->)|(b & H & H1 & ->)]]]]].
      * left. eauto.
      * right. left. exists (i_name a). rewrite again_cons. auto.
      * right. right. exists a. auto.
      * left. eauto.
      * right. left. exists b. rewrite again_cons. auto.
      * right. right. exists b. auto.
    + intros [(b & [->|H] & H1)|[(b & H & ->)|(b & [->|H] & H1 & ->)]]; [tauto|do 3 right; left; eauto| |tauto|do 5 right; eauto].
      rewrite again_cons in H. destruct H as [[-> H]|H]; [tauto|do 4 right; left; eauto].
Qed.
Definition field_errors (s : schema) (d : tydef) (e : err) : Prop :=
  (t_fields d = [] /\ e = EMsg (B "Type " ++ t_name d ++ B " must define one or more fields.")) \/
  (exists f, In f (t_fields d) /\ (name_error (fd_name f) e \/
     (~ kind_among s output_kinds (fd_type f) /\ e = EMsg (B "The type of " ++ t_name d ++ B "." ++ fd_name f ++ B " must be Output Type.")) \/
     (exists a, In a (fd_args f) /\ name_error (i_name a) e) \/
     (exists a, repeated a (map i_name (fd_args f)) /\ e = EMsg (B "Field argument " ++ t_name d ++ B "." ++ fd_name f ++ B "(" ++ a ++ B ":) can only be defined once.")) \/
     (exists a, In a (fd_args f) /\ ~ kind_among s input_kinds (i_type a) /\ e = EMsg (B "The type of " ++ t_name d ++ B "." ++ fd_name f ++ B "(" ++ i_name a ++ B ":) must be Input Type.")))).
Lemma outs_fields s d : outs (validate_fields s d) (field_errors s d).
Proof.
  unfold validate_fields. eapply outs_iff; [apply outs_seq; [apply outs_if|apply outs_for; intros f _; unfold validate_field; cbv zeta; apply outs_seq; [apply outs_name|apply outs_seq; [apply outs_kind, is_output_spec|apply outs_fieldargs]]]|].
  intros e. unfold field_errors. cbn beta. assert (M : match t_fields d with [] => true | _ => false end = true <-> t_fields d = []) by (destruct (t_fields d); split; congruence). rewrite M.
  assert (A : forall x y z : bytes, (x ++ y) ++ z = x ++ y ++ z) by (intros; symmetry; apply app_assoc).
  split.
  - intros [H|(f & Hf & [H|[[H ->]|[H|[(a & H & ->)|(a & H & H1 & ->)]]]])]; [left; exact H|right; exists f..]; (split; [exact Hf|]).
    + left. exact H.
    + right. left. split; [exact H|]. rewrite !A. reflexivity.
    + right. right. left. exact H.
    + right. right. right. left. exists a. rewrite again_nil in H. split; [exact H|]. rewrite !A. reflexivity.
    + do 4 right. exists a. split; [exact H|]. split; [exact H1|]. rewrite !A. reflexivity.
  - intros [H|(f & Hf & [H|[[H ->]|[H|[(a & H & ->)|(a & H & H1 & ->)]]]])]; [left; exact H|right; exists f..]; (split; [exact Hf|]).
    + left. exact H.
    + right. left. split; [exact H|]. rewrite !A. reflexivity.
    + right. right. left. exact H.
    + right. right. right. left. exists a. rewrite again_nil. split; [exact H|]. rewrite !A. reflexivity.
    + do 4 right. exists a. split; [exact H|]. split; [exact H1|]. rewrite !A. reflexivity.
Qed.

(** *** Interfaces *)
Lemma field_loop_spec l n : match field_loop l n with
  | Some g => exists a b, l = a ++ g :: b /\ fd_name g = n /\ Forall (fun g => fd_name g <> n) a
  | None => forall g, In g l -> fd_name g <> n end.
Proof.
  induction l as [|f l IH]; cbn [field_loop]; [intros g []|]. destruct (beqb_spec (fd_name f) n) as [E|E].
  - exists [], l. auto.
  - destruct (field_loop l n).
    + destruct IH as (a & b & -> & H & F). exists (f :: a), b. split; [reflexivity|]. split; [exact H|]. constructor; assumption.
    + intros g [<-|H]; [exact E|apply IH, H].
Qed.
Lemma field_by_name_spec d n : t_kind d = KObject -> match field_by_name d n with Some g => first_named d n g | None => forall g, In g (t_fields d) -> fd_name g <> n end.
Proof. intros K. unfold field_by_name. rewrite K. apply field_loop_spec. Qed.
Lemma first_named_inj d n f g : first_named d n f -> first_named d n g -> f = g.
Proof.
  intros (a & b & E & H & F) (a' & b' & E' & H' & F'). rewrite E in E'. clear E. revert a' E' F'. induction a as [|x a IH]; intros [|y a'] E' F'; cbn in E'; injection E' as E1 E2.
  - exact E1.
  - subst. inversion F'; subst. congruence.
  - subst. inversion F; subst. congruence.
  - inversion F; inversion F'; subst. eapply IH; eauto.
Qed.
Lemma first_named_in d n f : first_named d n f -> In f (t_fields d) /\ fd_name f = n.
Proof. intros (a & b & E & H & _). split; [|exact H]. rewrite E. apply in_or_app. right. left. reflexivity. Qed.


Section Validate.
  Variable peq : ty -> ty -> bool.
  Hypothesis peq_ok : forall a b, peq a b = true -> a = b.
  Variables (oi : emap tydef) (s : schema).
  Hypothesis O : visits_map oi (sc_types s).
  Hypothesis Named : kind_of s [] = None.
  Lemma loop_mono f f' rest iter len t r : possible_loop peq f rest iter len t = GOk r -> f <= f' -> possible_loop peq f' rest iter len t = GOk r.
  Proof.
    revert f' rest iter. induction f as [|f IH]; intros f' rest iter H L; [discriminate|]. destruct f' as [|f']; [lia|]. cbn [possible_loop] in *.
    destruct (gen_next zero_type rest iter) as [[[x i] rest'] iter']. destruct (i <? len)%Z; [|exact H]. destruct (go_eq peq x t); [exact H|]. apply IH; [exact H|lia].
  Qed.
  Lemma subtype_mono f : forall f' a b r, is_subtype peq f oi s a b = GOk r -> f <= f' -> is_subtype peq f' oi s a b = GOk r.
  Proof.
    induction f as [|f IH]; intros f' a b r H L; [discriminate|]. destruct f' as [|f']; [lia|]. cbn [is_subtype] in *. destruct (go_eq peq a b); [exact H|]. destruct (nonnull b).
    - destruct (nonnull a); [|exact H]. apply IH; [exact H|lia].
    - destruct (nonnull a); [apply IH; [exact H|lia]|]. destruct b, a; try exact H; [|apply IH; [exact H|lia]].
      destruct (is_abstract _ _ && is_object _ _); [|exact H]. unfold is_possible in *. eapply loop_mono; [exact H|lia].
  Qed.
  Lemma cov_not_und a b : covariant s a b -> ~ undecided s a b.
  Proof. induction 1; intros U; inversion U; subst; contradiction. Qed.
  Lemma subtype_result fuel a b r : whole a -> whole b -> is_subtype peq fuel oi s a b = GOk r -> (r = true <-> covariant s a b) /\ ~ undecided s a b.
  Proof.
    intros Wa Wb E. destruct (subtype_decided peq peq_ok oi s O Named a b Wa Wb) as [[C T]|[[C T]|(C & C' & T)]]; unfold decides in T.
    - destruct T as (k & T). pose proof (subtype_mono _ (max k fuel) _ _ _ E ltac:(lia)) as E'. rewrite (T (max k fuel)) in E' by lia. injection E' as <-. split; [tauto|apply cov_not_und, C].
    - rewrite T in E. discriminate.
    - destruct T as (k & T). pose proof (subtype_mono _ (max k fuel) _ _ _ E ltac:(lia)) as E'. rewrite (T (max k fuel)) in E' by lia. injection E' as <-. split; [split; [discriminate|tauto]|exact C'].
  Qed.
  Lemma loop_no_panic f rest iter len t : possible_loop peq f rest iter len t <> GPanic.
  Proof.
    revert rest iter. induction f as [|f IH]; intros rest iter; [discriminate|]. cbn [possible_loop]. destruct (gen_next zero_type rest iter) as [[[x i] rest'] iter'].
    destruct (i <? len)%Z; [|discriminate]. destruct (go_eq peq x t); [discriminate|apply IH].
  Qed.
  Lemma subtype_no_panic fuel : forall a b, whole a -> whole b -> is_subtype peq fuel oi s a b <> GPanic.
  Proof.
    induction fuel as [|f IH]; intros a b Wa Wb; [discriminate|]. cbn [is_subtype]. assert (Wn : forall t, whole t -> whole (nullable t)) by (intros []; auto).
    destruct (go_eq peq a b); [discriminate|]. destruct (nonnull b).
    - destruct (nonnull a); [|discriminate]. apply IH; auto.
    - destruct (nonnull a); [apply IH; auto|]. destruct b, a; try discriminate; try (elim Wa; reflexivity); try (elim Wb; reflexivity); [|apply IH; assumption].
      destruct (is_abstract _ _ && is_object _ _); [|discriminate]. apply loop_no_panic.
  Qed.

  Variable W : whole_types s.
  Definition provides (d i : tydef) (e : err) : Prop := exists f, In f (t_fields i) /\
    (((forall g, In g (t_fields d) -> fd_name g <> fd_name f) /\ e = EMsg (B "Interface field " ++ t_name i ++ B "." ++ fd_name f ++ B " expected but " ++ t_name d ++ B " does not provide it.")) \/
     (exists g, first_named d (fd_name f) g /\ ~ covariant s (fd_type g) (fd_type f) /\
        e = EMsg (B "Interface field " ++ t_name i ++ B "." ++ fd_name f ++ B " expects type " ++ ty_string (fd_type f) ++ B " but " ++ t_name d ++ B "." ++ fd_name g ++ B " is type " ++ ty_string (fd_type g)))).
  Lemma outs_implements fuel d i : type_in s KObject d -> type_in s KInterface i -> outs (validate_implements peq fuel oi s d i) (provides d i).
  Proof.
    intros Hd Hi. unfold validate_implements, provides. apply outs_for. intros f Hf. cbv zeta. destruct Hd as (nd & Ed & Kd). pose proof (field_by_name_spec d (fd_name f) Kd) as S.
    assert (A : forall x y z : bytes, (x ++ y) ++ z = x ++ y ++ z) by (intros; symmetry; apply app_assoc).
    destruct (field_by_name d (fd_name f)) as [g|]; rewrite !A.
    - assert (Wg : whole (fd_type g)) by (apply (W d g); [left; exists nd; auto|apply (first_named_in _ _ _ S)]). assert (Wf : whole (fd_type f)) by (apply (W i f); [right; exact Hi|exact Hf]).
      eapply outs_iff; [apply outs_kind; intros b Eb; apply (subtype_result _ _ _ _ Wg Wf Eb)|]. intros e. split.
      + intros [H ->]. right. exists g. auto.
      + intros [[H _]|(g' & S' & H & ->)].
        * exfalso. apply (H g); apply (first_named_in _ _ _ S).
        * rewrite (first_named_inj _ _ _ _ S' S) in *. auto.
    - eapply outs_iff; [apply outs_add|]. intros e. split; [intros ->; auto|]. intros [[_ H]|(g & S' & _)]; [exact H|]. exfalso. apply first_named_in in S'. destruct S' as [S1 S2]. apply (S g S1 S2).
  Qed.
  Lemma outs_interfaces fuel d : type_in s KObject d -> forall l seen, outs (object_interfaces peq fuel oi s d seen l) (fun e =>
    (exists t, In t l /\ kind_of s (name_of t) <> Some KInterface /\ e = EMsg (B "Type " ++ t_name d ++ B " must only implement Interface types, it cannot implement " ++ name_of t)) \/
    (exists n, again seen n (map name_of l) /\ kind_of s n = Some KInterface /\ e = EMsg (B "Type " ++ t_name d ++ B " can only implement " ++ n ++ B " once.")) \/
    (exists t i, In t l /\ ~ In (name_of t) seen /\ mget (name_of t) (sc_types s) = Some i /\ t_kind i = KInterface /\ provides d i e)).
  Proof.
    intros Hd. induction l as [|t l IH]; intros seen; cbn [object_interfaces map].
    - eapply outs_iff; [apply outs_ret|]. intros e. split; [tauto|]. intros [(a & [] & _)|[(a & [[[] _]|(x & y & z & H)] & _)|(a & i & [] & _)]]. destruct x; discriminate.
    - change (named_of t) with (name_of t). assert (Ki : is_interface s t = true <-> kind_of s (name_of t) = Some KInterface) by apply has_kind1. destruct (is_interface s t) eqn:E; cbn [negb].
      + assert (K : kind_of s (name_of t) = Some KInterface) by (apply Ki; reflexivity). clear Ki E. destruct (existsb (beqb (name_of t)) seen) eqn:E.
        * apply seen_spec in E. eapply outs_iff; [apply outs_seq; [apply outs_add|apply IH]|]. intros e. cbn [In]. split.
          -- intros [->|[(b & H & H1)|[(b & H & H1 & ->)|(b & i & H & H1)]]].
             ++ right. left. exists (name_of t). rewrite again_skip by exact E. auto.
             ++ left. exists b. auto.
             ++ right. left. exists b. rewrite again_skip by exact E. auto.
             ++ right. right. exists b, i. auto.
          -- intros [(b & [->|H] & H1 & ->)|[(b & H & H1 & ->)|(b & i & [->|H] & H1 & H2)]]; [congruence|right; left; exists b; auto| |tauto|right; right; right; exists b, i; auto].
             rewrite again_skip in H by exact E. destruct H as [->|H]; [left; reflexivity|right; right; left; exists b; auto].
        * apply not_true_iff_false in E. rewrite seen_spec in E. assert (K' := K). unfold kind_of in K'. destruct (mget (name_of t) (sc_types s)) as [i|] eqn:Ei; [|discriminate]. injection K' as K'.
          eapply outs_iff; [apply outs_seq; [apply outs_implements; [exact Hd|exists (name_of t); auto]|apply IH]|]. intros e. cbn [In]. split.
          -- intros [H|[(b & H & H1)|[(b & H & H1 & ->)|(b & i' & H & H1 & H2)]]].
             ++ right. right. exists t, i. auto.
             ++ left. exists b. auto.
             ++ right. left. exists b. rewrite again_cons. auto.
             ++ right. right. exists b, i'. tauto.
          -- intros [(b & [->|H] & H1 & ->)|[(b & H & H1 & ->)|(b & i' & [->|H] & H1 & H2 & H3)]]; [congruence|right; left; exists b; auto| | |].
             ++ rewrite again_cons in H. destruct H as [[-> H]|H]; [tauto|right; right; left; exists b; auto].
             ++ rewrite Ei in H2. injection H2 as <-. left. tauto.
             ++ destruct (list_eq_dec ascii_dec (name_of t) (name_of b)) as [Eq|Ne].
                ** left. rewrite <- Eq, Ei in H2. injection H2 as <-. tauto.
                ** right. right. right. exists b, i'. tauto.
      + assert (K : kind_of s (name_of t) <> Some KInterface) by (rewrite <- Ki; congruence). clear Ki E. eapply outs_iff; [apply outs_seq; [apply outs_add|apply IH]|]. intros e. cbn [In]. split.
        * intros [->|[(b & H & H1)|[(b & H & H1 & ->)|(b & i & H & H1)]]].
          -- left. exists t. auto.
          -- left. exists b. auto.
          -- right. left. exists b. split; [|auto]. unfold again in *. rewrite repeated_cons. cbn [In]. tauto.
          -- right. right. exists b, i. auto.
        * intros [(b & [->|H] & H1 & ->)|[(b & H & H1 & ->)|(b & i & [->|H] & H1 & H2 & H3 & H4)]]; [left; reflexivity|right; left; exists b; auto| | |].
          -- right. right. left. exists b. split; [|auto]. unfold again in *. rewrite repeated_cons in H. cbn [In] in H. intuition congruence.
          -- exfalso. apply K. unfold kind_of. rewrite H2. cbn. congruence.
          -- right. right. right. exists b, i. tauto.
  Qed.
End Validate.

(** ** Everything together *)
Lemma root_spec s o d : root_def s o = Some d <-> root s o d.
Proof. unfold root_def, root. destruct o as [t|]; [|split; [discriminate|intros (t & E & _); discriminate]]. change (named_of t) with (name_of t). split; [eauto|intros (t' & E & H)]. injection E as ->. exact H. Qed.
Lemma root_outs s o (k : tkindT) x : outs (match root_def s o with None => vret | Some d => vif (negb (is_kind KObject d)) x end) (fun e => exists d, root s o d /\ t_kind d <> KObject /\ e = x).
Proof.
  destruct (root_def s o) as [d|] eqn:E.
  - apply root_spec in E. eapply outs_iff; [apply outs_if|]. intros e. unfold is_kind. rewrite negb_true_iff, <- not_true_iff_false, tkind_eqb_spec. split.
    + intros [H ->]. exists d. split; [exact E|]. split; [congruence|reflexivity].
    + intros (d' & E' & H & ->). apply root_spec in E. apply root_spec in E'. rewrite E in E'. injection E' as <-. split; [congruence|reflexivity].
  - eapply outs_iff; [apply outs_ret|]. intros e. split; [tauto|]. intros (d & H & _). apply root_spec in H. congruence.
Qed.
Lemma root_functional s o d d' : root s o d -> root s o d' -> d = d'.
Proof. rewrite <- !root_spec. congruence. Qed.
Lemma outs_roots s : outs (validate_roots s) (fun e =>
  ((forall d, ~ root s (sc_query s) d) /\ e = EMsg (B "Query root type must be provided.")) \/
  (exists d, root s (sc_query s) d /\ t_kind d <> KObject /\ e = EMsg (B "Query root type must be Object type.")) \/
  (exists d, root s (sc_mutation s) d /\ t_kind d <> KObject /\ e = EMsg (B "Mutation root type must be Object type if provided.")) \/
  (exists d, root s (sc_subscription s) d /\ t_kind d <> KObject /\ e = EMsg (B "Subscription root type must be Object type if provided."))).
Proof.
  unfold validate_roots. eapply outs_iff; [apply outs_seq; [|apply outs_seq; apply root_outs; exact KObject]|].
  - instantiate (1 := fun e => ((forall d, ~ root s (sc_query s) d) /\ e = EMsg (B "Query root type must be provided.")) \/
      (exists d, root s (sc_query s) d /\ t_kind d <> KObject /\ e = EMsg (B "Query root type must be Object type."))).
    pose proof (root_outs s (sc_query s) KObject (EMsg (B "Query root type must be Object type."))) as R. destruct (root_def s (sc_query s)) as [d|] eqn:E.
    + eapply outs_iff; [exact R|]. intros e. split; [tauto|]. intros [[H _]|H]; [|exact H]. exfalso. apply (H d). apply root_spec. exact E.
    + eapply outs_iff; [apply outs_add|]. intros e. split.
      * intros ->. left. split; [|reflexivity]. intros d H. apply root_spec in H. congruence.
      * intros [[_ H]|(d & H & _)]; [exact H|]. apply root_spec in H. congruence.
  - intros e. cbn beta. tauto.
Qed.

Section All.
  Variable peq : ty -> ty -> bool.
  Hypothesis peq_ok : forall a b, peq a b = true -> a = b.
  Variables (od : emap dirdef) (ot oi : emap tydef) (s : schema).
  Hypothesis Od : visits_map od (sc_dirs s).
  Hypothesis Ot : visits_map ot (sc_types s).
  Hypothesis O : visits_map oi (sc_types s).
  Hypothesis Named : kind_of s [] = None.
  Hypothesis W : whole_types s.
  Definition type_errors (p : bytes * tydef) (e : err) : Prop :=
    (~ introspection_type (fst p) /\ name_error (fst p) e) \/ (t_kind (snd p) = KObject \/ t_kind (snd p) = KInterface) /\ field_errors s (snd p) e \/
    t_kind (snd p) = KObject /\
      ((exists t, In t (t_impl (snd p)) /\ kind_of s (name_of t) <> Some KInterface /\ e = EMsg (B "Type " ++ t_name (snd p) ++ B " must only implement Interface types, it cannot implement " ++ name_of t)) \/
       (exists n, repeated n (map name_of (t_impl (snd p))) /\ kind_of s n = Some KInterface /\ e = EMsg (B "Type " ++ t_name (snd p) ++ B " can only implement " ++ n ++ B " once.")) \/
       (exists t i, In t (t_impl (snd p)) /\ mget (name_of t) (sc_types s) = Some i /\ t_kind i = KInterface /\ provides s (snd p) i e)).
  Lemma outs_type fuel p : In p ot -> outs (validate_type peq fuel oi s p) (type_errors p).
  Proof.
    destruct p as [n d]. intros Hp. apply Ot in Hp. unfold validate_type, type_errors. cbn [fst snd].
    assert (N : outs (if is_introspection n then vret else validate_name n) (fun e => ~ introspection_type n /\ name_error n e)).
    { pose proof (introspection_spec n) as I. destruct (is_introspection n).
      - eapply outs_iff; [apply outs_ret|]. intros e. assert (introspection_type n) by (apply I; reflexivity). tauto.
      - eapply outs_iff; [apply outs_name|]. intros e. assert (~ introspection_type n) by (rewrite <- I; discriminate). tauto. }
    destruct (t_kind d) eqn:K; try (eapply outs_iff; [apply outs_seq; [exact N|apply outs_ret]|]; intros e; cbn beta; intuition discriminate).
    - assert (Hd : type_in s KObject d) by (exists n; auto). eapply outs_iff; [apply outs_seq; [exact N|apply outs_seq; [apply outs_fields|apply (outs_interfaces peq peq_ok oi s O Named W fuel d Hd)]]|].
      intros e. cbn beta. split.
      + intros [H|[H|[H|[(m & H & H1)|(t & i & H & _ & H1)]]]]; [tauto|tauto|tauto| |].
        * right. right. split; [reflexivity|]. right. left. exists m. rewrite again_nil in H. auto.
        * right. right. split; [reflexivity|]. right. right. exists t, i. auto.
      + intros [H|[H|[_ [H|[(m & H & H1)|(t & i & H & H1)]]]]]; [tauto|tauto|tauto| |].
        * do 3 right. left. exists m. rewrite again_nil. auto.
        * do 4 right. exists t, i. cbn [In]. tauto.
    - eapply outs_iff; [apply outs_seq; [exact N|apply outs_fields]|]. intros e. cbn beta. intuition discriminate.
  Qed.
  Lemma outs_schema fuel : outs (validate_schema peq fuel od ot oi s) (violation s).
  Proof.
    unfold validate_schema. eapply outs_iff; [apply outs_seq; [apply outs_roots|apply outs_seq; [apply (outs_directives od s Od)|apply outs_for; intros p Hp; apply outs_type; exact Hp]]|].
    intros e. cbn beta. destruct Ot as [_ Ot']. split.
    - intros [[[H ->]|[(d & H & H1 & ->)|[(d & H & H1 & ->)|(d & H & H1 & ->)]]]|[[(n & d & H & [H1|(a & H1 & H2)])|(n & d & a & H & H1 & ->)]|((n & d) & Hp & H)]].
      + apply vi_query_missing; exact H.
      + eapply vi_query; eassumption.
      + eapply vi_mutation; eassumption.
      + eapply vi_subscription; eassumption.
      + eapply vi_name; [eapply cn_directive; exact H|exact H1].
      + eapply vi_name; [eapply cn_directive_arg; eassumption|exact H2].
      + eapply vi_directive_arg; eassumption.
      + apply Ot' in Hp. unfold type_errors in H. cbn [fst snd] in H. destruct H as [[H H1]|[[K H]|[K H]]].
        * eapply vi_name; [eapply cn_type; eassumption|exact H1].
        * assert (Hd : with_fields_in s d) by (destruct K as [K|K]; [left|right]; exists n; auto).
          destruct H as [[H ->]|(f & Hf & [H|[[H ->]|[(a & H & H1)|[(a & H & ->)|(a & H & H1 & ->)]]]])].
          -- apply vi_no_fields; assumption.
          -- eapply vi_name; [eapply cn_field; eassumption|exact H].
          -- apply vi_output; assumption.
          -- eapply vi_name; [eapply cn_field_arg; eassumption|exact H1].
          -- apply vi_field_arg; assumption.
          -- apply vi_input; assumption.
        * assert (Hd : type_in s KObject d) by (exists n; auto). destruct H as [(t & H & H1 & ->)|[(m & H & H1 & ->)|(t & i & H & H1 & Ki & f & Hf & [[H2 ->]|(g & H2 & H3 & ->)])]].
          -- apply vi_not_interface; assumption.
          -- apply vi_interface_twice; assumption.
          -- apply vi_field_missing; [|exact H2]. split; [exact Hd|]. split; [eauto|]. auto.
          -- apply vi_field_type; [|exact H2|exact H3]. split; [exact Hd|]. split; [eauto|]. auto.
    - assert (F : forall d, with_fields_in s d -> exists n, In (n, d) ot /\ (t_kind d = KObject \/ t_kind d = KInterface)).
      { intros d [(n & E & K)|(n & E & K)]; exists n; rewrite Ot'; auto. }
      assert (F' : forall d, type_in s KObject d -> exists n, In (n, d) ot /\ t_kind d = KObject) by (intros d (n & E & K); exists n; rewrite Ot'; auto).
      intros H. destruct H as [n e [m d H|m d a H H1|m d H H1|d f H H1|d f a H H1 H2] He|H|d H H1|d H H1|d H H1|n d a H H1|d H H1|d f H H1 H2|d f a H H1 H2|d f a H H1 H2 H3|d t H H1 H2|d n H H1 H2|d i f H H1|d i f g H H1 H2].
      + right. left. left. exists m, d. auto.
      + right. left. left. exists m, d. split; [exact H|]. right. exists a. auto.
      + right. right. exists (m, d). rewrite Ot'. split; [exact H|]. left. auto.
      + destruct (F d H) as (k & Hk & K). right. right. exists (k, d). split; [exact Hk|]. right. left. split; [exact K|]. right. exists f. auto.
      + destruct (F d H) as (k & Hk & K). right. right. exists (k, d). split; [exact Hk|]. right. left. split; [exact K|]. right. exists f. split; [exact H1|]. right. right. left. exists a. auto.
      + left. left. auto.
      + left. right. left. exists d. auto.
      + left. right. right. left. exists d. auto.
      + left. right. right. right. exists d. auto.
      + right. left. right. exists n, d, a. auto.
      + destruct (F d H) as (k & Hk & K). right. right. exists (k, d). split; [exact Hk|]. right. left. split; [exact K|]. left. auto.
      + destruct (F d H) as (k & Hk & K). right. right. exists (k, d). split; [exact Hk|]. right. left. split; [exact K|]. right. exists f. auto.
      + destruct (F d H) as (k & Hk & K). right. right. exists (k, d). split; [exact Hk|]. right. left. split; [exact K|]. right. exists f. split; [exact H1|]. do 3 right. left. exists a. auto.
      + destruct (F d H) as (k & Hk & K). right. right. exists (k, d). split; [exact Hk|]. right. left. split; [exact K|]. right. exists f. split; [exact H1|]. do 4 right. exists a. auto.
      + destruct (F' d H) as (k & Hk & K). right. right. exists (k, d). split; [exact Hk|]. right. right. split; [exact K|]. left. exists t. auto.
      + destruct (F' d H) as (k & Hk & K). right. right. exists (k, d). split; [exact Hk|]. right. right. split; [exact K|]. right. left. exists n. auto.
      + destruct H as (Hd & (t & Ht & Et) & Ki & Hf). destruct (F' d Hd) as (k & Hk & K). right. right. exists (k, d). split; [exact Hk|]. right. right. split; [exact K|]. right. right. exists t, i.
        split; [exact Ht|]. split; [exact Et|]. split; [exact Ki|]. exists f. auto.
      + destruct H as (Hd & (t & Ht & Et) & Ki & Hf). destruct (F' d Hd) as (k & Hk & K). right. right. exists (k, d). split; [exact Hk|]. right. right. split; [exact K|]. right. right. exists t, i.
        split; [exact Ht|]. split; [exact Et|]. split; [exact Ki|]. exists f. split; [exact Hf|]. right. exists g. auto.
  Qed.

  (** ** Termination *)
  Definition calm (v : V) : Prop := forall es, v es <> GPanic.
  Lemma calm_ret : calm vret. Proof. intros es. discriminate. Qed.
  Lemma calm_add x : calm (vadd x). Proof. intros es. discriminate. Qed.
  Lemma calm_if b x : calm (vif b x). Proof. destruct b; intros es; discriminate. Qed.
  Lemma calm_seq a b : calm a -> calm b -> calm (vseq a b).
  Proof. intros Ha Hb es. unfold vseq. specialize (Ha es). destruct (a es); [apply Hb|congruence|discriminate]. Qed.
  Lemma calm_for {X} (f : X -> V) l : (forall x, In x l -> calm (f x)) -> calm (vfor f l).
  Proof. induction l as [|x l IH]; intros H; cbn [vfor]; [apply calm_ret|]. apply calm_seq; [apply H; left; reflexivity|apply IH; intros y Hy; apply H; right; exact Hy]. Qed.
  Lemma calm_test g k : g <> GPanic -> (forall b, calm (k b)) -> calm (vtest g k).
  Proof. intros Hg Hk es. unfold vtest. destruct g; [apply Hk|congruence|discriminate]. Qed.
  Lemma calm_name n : calm (validate_name n).
  Proof. intros es. unfold validate_name. destruct n as [|c r]; [discriminate|]. destruct (_ && _); [discriminate|]. destruct (name_runes _ _ _); discriminate. Qed.
  Lemma halts_name n es : exists es', validate_name n es = GOk es'.
  Proof. unfold validate_name. destruct n as [|c r]; [eexists; reflexivity|]. destruct (_ && _); [eexists; reflexivity|]. destruct (name_runes _ _ _); eexists; reflexivity. Qed.
  Definition halts (v : nat -> V) : Prop := exists k, forall fuel, k <= fuel -> forall es, exists es', v fuel es = GOk es'.
  Lemma halts_const v : (forall es, exists es', v es = GOk es') -> halts (fun _ => v).
  Proof. intros H. exists 0. intros fuel _. exact H. Qed.
  Lemma halts_seq a b : halts a -> halts b -> halts (fun f => vseq (a f) (b f)).
  Proof.
    intros (k & Ha) (k' & Hb). exists (max k k'). intros fuel Hf es. unfold vseq. destruct (Ha fuel ltac:(lia) es) as (es1 & ->). apply Hb. lia.
  Qed.
  Lemma halts_for {X} (f : nat -> X -> V) l : (forall x, In x l -> halts (fun n => f n x)) -> halts (fun n => vfor (f n) l).
  Proof.
    induction l as [|x l IH]; intros H; cbn [vfor]; [apply halts_const; intros es; eexists; reflexivity|]. apply (halts_seq (fun n => f n x) (fun n => vfor (f n) l)); [apply H; left; reflexivity|apply IH; intros y Hy; apply H; right; exact Hy].
  Qed.
  Lemma halts_test (g : nat -> go bool) k b : (exists n, forall fuel, n <= fuel -> g fuel = GOk b) -> (forall es, exists es', k b es = GOk es') -> halts (fun f => vtest (g f) k).
  Proof. intros (n & Hg) Hk. exists n. intros fuel Hf es. unfold vtest. rewrite (Hg fuel Hf). apply Hk. Qed.
  Lemma some_if b x es : exists es', vif b x es = GOk es'. Proof. destruct b; eexists; reflexivity. Qed.
  Lemma some_seq a b : (forall es, exists es', a es = GOk es') -> (forall es, exists es', b es = GOk es') -> forall es, exists es', vseq a b es = GOk es'.
  Proof. intros Ha Hb es. unfold vseq. destruct (Ha es) as (es1 & ->). apply Hb. Qed.
  Lemma some_for {X} (f : X -> V) l : (forall x, In x l -> forall es, exists es', f x es = GOk es') -> forall es, exists es', vfor f l es = GOk es'.
  Proof. induction l as [|x l IH]; intros H; cbn [vfor]; [intros es; eexists; reflexivity|]. apply some_seq; [apply H; left; reflexivity|apply IH; intros y Hy; apply H; right; exact Hy]. Qed.
  Lemma some_test g k : (exists b, g = GOk b) -> (forall b es, exists es', k b es = GOk es') -> forall es, exists es', vtest g k es = GOk es'.
  Proof. intros (b & ->) H es. apply H. Qed.
  Lemma whole_input t : whole t -> exists b, is_input s t = GOk b.
  Proof. unfold whole. induction t; cbn; intros H; eauto. congruence. Qed.
  Lemma whole_output t : whole t -> exists b, is_output s t = GOk b.
  Proof. unfold whole. induction t; cbn; intros H; eauto. congruence. Qed.
  Lemma some_roots es : exists es', validate_roots s es = GOk es'.
  Proof.
    unfold validate_roots. apply some_seq; [intros es1; destruct (root_def s (sc_query s)); [apply some_if|eexists; reflexivity]|]. apply some_seq; intros es1.
    - destruct (root_def s (sc_mutation s)); [apply some_if|eexists; reflexivity].
    - destruct (root_def s (sc_subscription s)); [apply some_if|eexists; reflexivity].
  Qed.
  Lemma some_dirargs d l : forall seen es, exists es', directive_args d seen l es = GOk es'.
  Proof. induction l as [|a l IH]; intros seen; cbn [directive_args]; [intros es; eexists; reflexivity|]. destruct (existsb _ _); apply some_seq; try apply IH; [intros es; eexists; reflexivity|apply halts_name]. Qed.
  Lemma some_directives es : exists es', validate_directives od es = GOk es'.
  Proof. apply some_for. intros p _. apply some_seq; [apply halts_name|apply some_dirargs]. Qed.
  Lemma some_fieldargs tf l : (forall a, In a l -> whole (i_type a)) -> forall seen es, exists es', field_args s tf seen l es = GOk es'.
  Proof.
    induction l as [|a l IH]; intros H seen; cbn [field_args]; [intros es; eexists; reflexivity|]. apply some_seq; [apply halts_name|]. apply some_seq; [apply some_if|].
    apply some_seq; [apply some_test; [apply whole_input, H; left; reflexivity|intros b; apply some_if]|]. apply IH. intros b Hb. apply H. right. exact Hb.
  Qed.
  Lemma some_fields d : with_fields_in s d -> forall es, exists es', validate_fields s d es = GOk es'.
  Proof.
    intros Hd. apply some_seq; [apply some_if|]. apply some_for. intros f Hf. destruct (W d f Hd Hf) as [W1 W2]. unfold validate_field. cbv zeta. apply some_seq; [apply halts_name|].
    apply some_seq; [apply some_test; [apply whole_output, W1|intros b; apply some_if]|]. apply some_fieldargs. exact W2.
  Qed.
  Lemma halts_implements d i : ~ has_undecided s -> (forall f, In f (t_fields i) -> must_provide s d i f) -> type_in s KObject d -> type_in s KInterface i -> halts (fun f => validate_implements peq f oi s d i).
  Proof.
    intros U M Hd Hi. unfold validate_implements. apply (halts_for (fun fuel f => _)). intros f Hf. cbv zeta. destruct Hd as (nd & Ed & Kd). pose proof (field_by_name_spec d (fd_name f) Kd) as S.
    destruct (field_by_name d (fd_name f)) as [g|]; [|apply halts_const; intros es; eexists; reflexivity].
    assert (Wg : whole (fd_type g)) by (apply (W d g); [left; exists nd; auto|apply (first_named_in _ _ _ S)]). assert (Wf : whole (fd_type f)) by (apply (W i f); [right; exact Hi|exact Hf]).
    destruct (subtype_decided peq peq_ok oi s O Named _ _ Wg Wf) as [[C T]|[[C T]|(C & C' & T)]].
    - eapply halts_test; [exact T|intros es; apply some_if].
    - exfalso. apply U. exists d, i, f, g. auto.
    - eapply halts_test; [exact T|intros es; apply some_if].
  Qed.
  Lemma halts_interfaces d : ~ has_undecided s -> type_in s KObject d -> forall l seen, incl l (t_impl d) -> halts (fun f => object_interfaces peq f oi s d seen l).
  Proof.
    intros U Hd. induction l as [|t l IH]; intros seen Hl; cbn [object_interfaces]; [apply halts_const; intros es; eexists; reflexivity|].
    assert (Hl' : incl l (t_impl d)) by (intros x Hx; apply Hl; right; exact Hx). change (named_of t) with (name_of t).
    destruct (is_interface s t) eqn:E; cbn [negb].
    - destruct (existsb _ _); [apply halts_seq; [apply halts_const; intros es; eexists; reflexivity|apply IH, Hl']|]. apply has_kind1 in E. change (named_of t) with (name_of t) in E. assert (K := E). unfold kind_of in K.
      destruct (mget (name_of t) (sc_types s)) as [i|] eqn:Ei; [|discriminate]. injection K as K. apply halts_seq; [|apply IH, Hl'].
      apply halts_implements; [exact U| |exact Hd|exists (name_of t); auto]. intros f Hf. split; [exact Hd|]. split; [exists t; split; [apply Hl; left; reflexivity|exact Ei]|auto].
    - apply halts_seq; [apply halts_const; intros es; eexists; reflexivity|apply IH, Hl'].
  Qed.
  Lemma halts_schema : ~ has_undecided s -> halts (fun f => validate_schema peq f od ot oi s).
  Proof.
    intros U. unfold validate_schema. apply (halts_seq (fun _ => validate_roots s)); [apply halts_const, some_roots|]. apply (halts_seq (fun _ => validate_directives od)); [apply halts_const, some_directives|].
    apply (halts_for (fun fuel p => validate_type peq fuel oi s p)). intros [n d] Hp. apply Ot in Hp. unfold validate_type. cbn [fst snd].
    apply (halts_seq (fun _ => if is_introspection n then vret else validate_name n)); [apply halts_const; intros es; destruct (is_introspection n); [eexists; reflexivity|apply halts_name]|].
    destruct (t_kind d) eqn:K; try (apply halts_const; intros es; eexists; reflexivity).
    - assert (Hd : type_in s KObject d) by (exists n; auto). apply (halts_seq (fun _ => validate_fields s d)); [apply halts_const, some_fields; left; exact Hd|]. apply halts_interfaces; [exact U|exact Hd|apply incl_refl].
    - apply halts_const, some_fields. right. exists n. auto.
  Qed.
  (** no crash *)
  Lemma some_calm v : (forall es, exists es', v es = GOk es') -> calm v.
  Proof. intros H es. destruct (H es) as (es' & ->). discriminate. Qed.
  Lemma calm_interfaces fuel d : type_in s KObject d -> forall l seen, calm (object_interfaces peq fuel oi s d seen l).
  Proof.
    intros Hd. induction l as [|t l IH]; intros seen; cbn [object_interfaces]; [apply calm_ret|]. change (named_of t) with (name_of t). destruct (is_interface s t) eqn:E; cbn [negb].
    - destruct (existsb _ _); [apply calm_seq; [apply calm_add|apply IH]|]. apply has_kind1 in E. change (named_of t) with (name_of t) in E. assert (K := E). unfold kind_of in K.
      destruct (mget (name_of t) (sc_types s)) as [i|] eqn:Ei; [|discriminate]. injection K as K. apply calm_seq; [|apply IH]. unfold validate_implements. apply calm_for. intros f Hf. cbv zeta.
      destruct Hd as (nd & Ed & Kd). pose proof (field_by_name_spec d (fd_name f) Kd) as S. destruct (field_by_name d (fd_name f)) as [g|]; [|apply calm_add]. apply calm_test; [|intros b; apply calm_if].
      apply subtype_no_panic; [apply (W d g); [left; exists nd; auto|apply (first_named_in _ _ _ S)]|apply (W i f); [right; exists (name_of t); auto|exact Hf]].
    - apply calm_seq; [apply calm_add|apply IH].
  Qed.
  Lemma calm_schema fuel : calm (validate_schema peq fuel od ot oi s).
  Proof.
    unfold validate_schema. apply calm_seq; [apply some_calm, some_roots|]. apply calm_seq; [apply some_calm, some_directives|]. apply calm_for. intros [n d] Hp. apply Ot in Hp. unfold validate_type. cbn [fst snd].
    apply calm_seq; [destruct (is_introspection n); [apply calm_ret|apply calm_name]|]. destruct (t_kind d) eqn:K; try apply calm_ret.
    - assert (Hd : type_in s KObject d) by (exists n; auto). apply calm_seq; [apply some_calm, some_fields; left; exact Hd|apply calm_interfaces; exact Hd].
    - apply some_calm, some_fields. right. exists n. auto.
  Qed.
  (** an undecided field: no result *)
  Definition never (v : V) : Prop := forall es es', v es <> GOk es'.
  Lemma never_l a b : never a -> never (vseq a b). Proof. intros H es es'. unfold vseq. specialize (H es). destruct (a es); try discriminate. congruence. Qed.
  Lemma never_r a b : never b -> never (vseq a b). Proof. intros H es es'. unfold vseq. destruct (a es); try discriminate. apply H. Qed.
  Lemma never_for {X} (f : X -> V) l x : In x l -> never (f x) -> never (vfor f l).
  Proof. induction l as [|y l IH]; intros Hx H; [destruct Hx|]. cbn [vfor]. destruct Hx as [->|Hx]; [apply never_l, H|apply never_r, IH; assumption]. Qed.
  Lemma never_interfaces fuel d n i : mget n (sc_types s) = Some i -> t_kind i = KInterface -> never (validate_implements peq fuel oi s d i) ->
    forall l seen, In n (map name_of l) -> ~ In n seen -> never (object_interfaces peq fuel oi s d seen l).
  Proof.
    intros En Kn H. induction l as [|t l IH]; intros seen Hl Hs; [destruct Hl|]. cbn [object_interfaces]. change (named_of t) with (name_of t). destruct (list_eq_dec ascii_dec (name_of t) n) as [E|Ne].
    - assert (Ki : is_interface s t = true) by (apply has_kind1; change (named_of t) with (name_of t); unfold kind_of; rewrite E, En; cbn; congruence). rewrite Ki. cbn [negb].
      destruct (existsb (beqb (name_of t)) seen) eqn:Es; [apply seen_spec in Es; congruence|]. rewrite E, En. apply never_l, H.
    - assert (Hl' : In n (map name_of l)) by (destruct Hl as [Hl|Hl]; [contradiction|exact Hl]). destruct (is_interface s t); cbn [negb].
      + destruct (existsb _ _); apply never_r, IH; auto. intros [X|X]; auto.
      + apply never_r, IH; auto.
  Qed.
  Lemma never_schema fuel : has_undecided s -> never (validate_schema peq fuel od ot oi s).
  Proof.
    intros (d & i & f & g & (Hd & (t & Ht & Et) & Ki & Hf) & Hg & U). unfold validate_schema. apply never_r, never_r. destruct Hd as (n & En & Kd). apply (never_for _ ot (n, d)); [apply Ot; exact En|].
    unfold validate_type. cbn [fst snd]. apply never_r. rewrite Kd. apply never_r. apply (never_interfaces fuel d (name_of t) i Et Ki); [|apply in_map, Ht|intros []].
    unfold validate_implements. apply (never_for _ _ f Hf). cbv zeta. pose proof (field_by_name_spec d (fd_name f) Kd) as S. destruct (field_by_name d (fd_name f)) as [g'|].
    - rewrite (first_named_inj _ _ _ _ S Hg) in *. assert (Wg : whole (fd_type g)) by (apply (W d g); [left; exists n; auto|apply (first_named_in _ _ _ Hg)]). assert (Wf : whole (fd_type f)) by (apply (W i f); [right; exists (name_of t); auto|exact Hf]).
      intros es es'. unfold vtest. destruct (is_subtype _ _ _ _ _ _) as [b| |] eqn:E; try discriminate. destruct (subtype_result peq peq_ok oi s O Named _ _ _ _ Wg Wf E) as [_ X]. contradiction.
    - exfalso. apply first_named_in in Hg. destruct Hg as [H1 H2]. apply (S g H1 H2).
  Qed.
End All.
