(** * TopProofs: lemmas for PropTop.v. *)
From Coq Require Import Permutation Relations.
From Verif Require Import Base AST Lexer Parser Walker WalkSpec Context Rules CtxProofs RuleProofs RuleSpec QueryProofs SdlProofs SchemaBuild Utils SchemaValidate SchemaSpec
  ValidateProofs SchemaProofs PropParse PropRules PropSdl PropBuild PropSchema ParsedNames Top.

Lemma flat_map_nil {X Y} (f : X -> list Y) l : flat_map f l = [] <-> forall x, In x l -> f x = [].
Proof.
  induction l as [|x l IH]; [split; [intros _ x []|reflexivity]|]. cbn [flat_map]. split.
  - intros H. apply app_eq_nil in H. destruct H as [H1 H2]. intros y [<-|Hy]; [exact H1|]. apply IH; assumption.
  - intros H. rewrite (H x (or_introl eq_refl)). cbn. apply IH. intros y Hy. apply H. right. exact Hy.
Qed.
Lemma map_filter_nil {X Y} (f : X -> Y) (p : X -> bool) l : map f (filter p l) = [] <-> forall x, In x l -> p x = false.
Proof.
  induction l as [|x l IH]; [split; [intros _ x []|reflexivity]|]. cbn [filter]. split.
  - intros H. destruct (p x) eqn:E; [discriminate H|]. intros y [<-|Hy]; [exact E|]. apply IH; assumption.
  - intros H. rewrite (H x (or_introl eq_refl)). apply IH. intros y Hy. apply H. right. exact Hy.
Qed.
Lemma reported_nil k c : reported k c = [] <-> forall e, In e (c_errors c) -> k e = false.
Proof.
  unfold reported. split.
  - intros H e He. destruct (k e) eqn:E; [|reflexivity]. assert (X : In e (rev (filter k (c_errors c)))) by (apply -> in_rev; apply filter_In; auto). rewrite H in X. destruct X.
  - intros H. rewrite filter_none by exact H. reflexivity.
Qed.
Lemma sites_nil {Y} (f : bytes -> Y) ls : flat_map (fun l => map f (later l)) ls = [] <-> Forall (@NoDup bytes) ls.
Proof.
  rewrite flat_map_nil, Forall_forall. split; intros H l Hl; specialize (H l Hl).
  - apply later_nil. destruct (later l); [reflexivity|discriminate H].
  - apply later_nil in H. rewrite H. reflexivity.
Qed.
Lemma n_ops_spec fok i d : parse fok i = Doc d -> n_ops d = List.length (operations d).
Proof.
  intros H. destruct (C14_counters fok i d H) as (E & _). rewrite E. unfold count, operations. generalize (doc_defs d) as ds. clear.
  induction ds as [|x ds IH]; [reflexivity|]. cbn [filter flat_map]. rewrite app_length. destruct (def_body x); cbn [List.length]; rewrite IH; reflexivity.
Qed.

(** ** Schema validation that returns has looked at no broken type *)
Definition oks (v : V) : Prop := exists es es', v es = GOk es'.
Lemma oks_seq a b : oks (vseq a b) -> oks a /\ oks b.
Proof. intros (es & es' & H). unfold vseq in H. destruct (a es) as [es1| |] eqn:E; try discriminate. split; [exists es, es1; exact E|exists es1, es'; exact H]. Qed.
Lemma oks_for {X} (f : X -> V) l x : oks (vfor f l) -> In x l -> oks (f x).
Proof. induction l as [|y l IH]; intros H Hi; [destruct Hi|]. cbn [vfor] in H. apply oks_seq in H. destruct H as [H1 H2]. destruct Hi as [<-|Hi]; [exact H1|apply IH; assumption]. Qed.
Lemma oks_test g k : oks (vtest g k) -> exists b, g = GOk b.
Proof. intros (es & es' & H). unfold vtest in H. destruct g as [b| |]; try discriminate. exists b. reflexivity. Qed.
Lemma output_whole s t b : is_output s t = GOk b -> whole t.
Proof. unfold whole. induction t as [n nn|t IH nn|]; cbn [is_output innermost]; [discriminate|exact IH|discriminate]. Qed.
Lemma input_whole s t b : is_input s t = GOk b -> whole t.
Proof. unfold whole. induction t as [n nn|t IH nn|]; cbn [is_input innermost]; [discriminate|exact IH|discriminate]. Qed.
Lemma fieldargs_whole s tf l : forall seen, oks (field_args s tf seen l) -> forall a, In a l -> whole (i_type a).
Proof.
  induction l as [|x l IH]; intros seen H a Ha; [destruct Ha|]. cbn [field_args] in H. apply oks_seq in H. destruct H as [_ H]. apply oks_seq in H. destruct H as [_ H]. apply oks_seq in H. destruct H as [H1 H2].
  destruct Ha as [<-|Ha]; [|eapply IH; eassumption]. apply oks_test in H1. destruct H1 as (b & H1). eapply input_whole, H1.
Qed.
Lemma field_whole s d f : oks (validate_field s d f) -> whole (fd_type f) /\ forall a, In a (fd_args f) -> whole (i_type a).
Proof.
  intros H. unfold validate_field in H. cbv zeta in H. apply oks_seq in H. destruct H as [_ H]. apply oks_seq in H. destruct H as [H1 H2]. split; [|eapply fieldargs_whole, H2].
  apply oks_test in H1. destruct H1 as (b & H1). eapply output_whole, H1.
Qed.
Lemma fields_whole s d f : oks (validate_fields s d) -> In f (t_fields d) -> whole (fd_type f) /\ forall a, In a (fd_args f) -> whole (i_type a).
Proof. intros H Hf. unfold validate_fields in H. apply oks_seq in H. destruct H as [_ H]. eapply field_whole, oks_for; eassumption. Qed.
Lemma returns_whole peq fuel od ot oi s es es' : visits_map ot (sc_types s) -> validate_schema peq fuel od ot oi s es = GOk es' -> whole_types s.
Proof.
  intros [_ O] H d f Hd Hf. assert (K : oks (validate_schema peq fuel od ot oi s)) by (exists es, es'; exact H). unfold validate_schema in K. apply oks_seq in K. destruct K as [_ K]. apply oks_seq in K. destruct K as [_ K].
  destruct Hd as [(n & E & Ek)|(n & E & Ek)]; apply O in E; pose proof (oks_for _ _ _ K E) as T; unfold validate_type in T; apply oks_seq in T; destruct T as [_ T]; cbn [snd] in T; rewrite Ek in T.
  - apply oks_seq in T. destruct T as [T _]. eapply fields_whole; eassumption.
  - eapply fields_whole; eassumption.
Qed.
(** ** The schema built from a parsed document has no type with an empty name *)
Lemma built_named fok i d s ord : parse fok i = Doc d -> visits d ord -> targets_defined d s -> kind_of (built d s ord) [] = None.
Proof.
  intros Hp Hv Ht. assert (N : defined_type d [] = None).
  { unfold defined_type. destruct (find _ (type_definitions d)) as [t|] eqn:E; [|reflexivity]. exfalso. apply find_some in E. destruct E as [Hi Hn]. destruct (bytes_dec [] (t_name t)) as [En|]; [|discriminate].
    unfold type_definitions in Hi. apply in_flat_map in Hi. destruct Hi as (x & Hx & Hi). pose proof (parsed_names fok i d Hp) as F. rewrite Forall_forall in F. specialize (F x Hx).
    destruct (def_body x); try destruct Hi; [|contradiction]. subst. cbn in F. congruence. }
  unfold kind_of. destruct s as [s|].
  - destruct (C35_actual d s ord Hv Ht) as (E & _). rewrite E, N. destruct (mget [] (sc_types s)); reflexivity.
  - rewrite (C34_types d ord Hv Ht), N. reflexivity.
Qed.
Lemma ex_dec {X} (l : list X) (P : X -> Prop) : (forall x, In x l -> P x \/ ~ P x) -> (exists x, In x l /\ P x) \/ ~ exists x, In x l /\ P x.
Proof.
  induction l as [|x l IH]; intros H; [right; intros (x & [] & _)|]. destruct (H x (or_introl eq_refl)) as [Hx|Hx]; [left; exists x; split; [left; reflexivity|exact Hx]|].
  destruct IH as [(y & Hy & Py)|N]; [intros y Hy; apply H; right; exact Hy|left; exists y; split; [right; exact Hy|exact Py]|]. right. intros (y & [<-|Hy] & Py); [contradiction|]. apply N. eauto.
Qed.
Lemma first_named_ex d n : (exists g, first_named d n g) \/ forall g, ~ first_named d n g.
Proof.
  unfold first_named. induction (t_fields d) as [|f l IH]; [right; intros g (a & b & E & _); destruct a; discriminate|].
  destruct (bytes_dec (fd_name f) n) as [E|E]; [left; exists f, [], l; auto|]. destruct IH as [(g & a & b & -> & H1 & H2)|N].
  - left. exists g, (f :: a), b. split; [reflexivity|]. split; [exact H1|]. constructor; assumption.
  - right. intros g ([|x a] & b & Eq & H1 & H2); cbn [app] in Eq; injection Eq as -> Eq; [contradiction|]. inversion H2; subst. apply (N g). exists a, b. auto.
Qed.
Lemma first_named_unique d n g g' : first_named d n g -> first_named d n g' -> g = g'.
Proof.
  unfold first_named. intros (a & b & E & H1 & H2) (a' & b' & E' & H1' & H2'). rewrite E in E'. clear E. revert a' E' H2'. induction a as [|x a IH]; intros [|x' a'] E' H2'; cbn [app] in E'; injection E' as E0 E'; subst.
  - reflexivity.
  - inversion H2'; subst. congruence.
  - inversion H2; subst. congruence.
  - inversion H2; inversion H2'; subst. eapply IH; eauto.
Qed.
Lemma undecided_dec (peq : ty -> ty -> bool) od ot oi s : (forall a b, peq a b = true -> a = b) -> visits_map od (sc_dirs s) -> visits_map ot (sc_types s) -> visits_map oi (sc_types s) -> kind_of s [] = None -> whole_types s ->
  has_undecided s \/ ~ has_undecided s.
Proof.
  intros P _ Ot Oi K W.
  assert (D : forall d i f, must_provide s d i f -> (exists g, first_named d (fd_name f) g /\ undecided s (fd_type g) (fd_type f)) \/ ~ exists g, first_named d (fd_name f) g /\ undecided s (fd_type g) (fd_type f)).
  { intros d i f M. destruct (first_named_ex d (fd_name f)) as [(g & Hg)|N]; [|right; intros (g & Hg & _); apply (N g Hg)].
    assert (Wf : whole (fd_type f)) by (destruct M as (_ & (t & _ & E) & Ki & Hf); apply (W i f); [right; exists (name_of t); auto|exact Hf]).
    assert (Wg : whole (fd_type g)) by (destruct Hg as (a & b & E & _); destruct M as (Td & _); apply (W d g); [left; exact Td|rewrite E; apply in_elt]).
    destruct (subtype_decided peq P oi s Oi K _ _ Wg Wf) as [[C _]|[[U _]|(_ & U & _)]].
    - right. intros (g' & Hg' & U). rewrite (first_named_unique _ _ _ _ Hg' Hg) in U. apply (cov_not_und s _ _ C U).
    - left. eauto.
    - right. intros (g' & Hg' & U'). rewrite (first_named_unique _ _ _ _ Hg' Hg) in U'. contradiction. }
  destruct (ex_dec ot (fun p => t_kind (snd p) = KObject /\ exists t, In t (t_impl (snd p)) /\ exists i, mget (name_of t) (sc_types s) = Some i /\ t_kind i = KInterface /\ exists f, In f (t_fields i) /\ exists g, first_named (snd p) (fd_name f) g /\ undecided s (fd_type g) (fd_type f))) as [H|H].
  - intros [n d] Hp. cbn [snd]. destruct (t_kind d) eqn:Kd; try (right; intros [X _]; discriminate).
    destruct (ex_dec (t_impl d) (fun t => exists i, mget (name_of t) (sc_types s) = Some i /\ t_kind i = KInterface /\ exists f, In f (t_fields i) /\ exists g, first_named d (fd_name f) g /\ undecided s (fd_type g) (fd_type f))) as [H|H]; [|left; auto|right; tauto].
    intros t Ht. destruct (mget (name_of t) (sc_types s)) as [i|] eqn:Ei; [|right; intros (i & X & _); discriminate].
    destruct (t_kind i) eqn:Ki; try (right; intros (i' & X & X' & _); injection X as <-; congruence).
    destruct (ex_dec (t_fields i) (fun f => exists g, first_named d (fd_name f) g /\ undecided s (fd_type g) (fd_type f))) as [H|H].
    + intros f Hf. apply (D d i). split; [exists n; split; [apply Ot, Hp|exact Kd]|]. split; [exists t; auto|]. split; assumption.
    + left. exists i. auto.
    + right. intros (i' & X & _ & X'). injection X as <-. contradiction.
  - left. destruct H as ([n d] & Hp & Kd & t & Ht & i & Ei & Ki & f & Hf & g & Hg & U). exists d, i, f, g. split; [|auto]. split; [exists n; split; [apply Ot, Hp|exact Kd]|]. split; [exists t; auto|]. split; assumption.
  - right. intros (d & i & f & g & ((n & En & Kd) & (t & Ht & Ei) & Ki & Hf) & Hg & U). apply H. exists (n, d). split; [apply Ot, En|]. cbn [snd]. split; [exact Kd|]. exists t. split; [exact Ht|]. exists i. split; [exact Ei|]. split; [exact Ki|]. exists f. split; [exact Hf|]. exists g. auto.
Qed.
(** Every map can be visited in some order. *)
Fixpoint dedup {V} (m : emap V) : emap V := match m with [] => [] | (k, v) :: m => (k, v) :: filter (fun p => negb (beqb k (fst p))) (dedup m) end.
Lemma dedup_visits {V} (m : emap V) : visits_map (dedup m) m.
Proof.
  assert (M : forall k k' (o : emap V), In k (map fst (filter (fun p => negb (beqb k' (fst p))) o)) <-> In k (map fst o) /\ k <> k').
  { intros k k' o. rewrite !in_map_iff. split.
    - intros ([x v] & <- & H). apply filter_In in H. destruct H as [H1 H2]. cbn [fst] in *. split; [exists (x, v); auto|]. intros ->. rewrite beqb_refl in H2. discriminate.
    - intros [([x v] & <- & H1) H2]. exists (x, v). split; [reflexivity|]. apply filter_In. split; [exact H1|]. cbn [fst] in *. replace (beqb k' x) with false; [reflexivity|]. symmetry. apply beqb_false. congruence. }
  induction m as [|[k v] m [IH1 IH2]]; [split; [constructor|intros k v; split; [intros []|discriminate]]|]. cbn [dedup]. split.
  - cbn [map fst]. constructor; [rewrite M; tauto|]. clear IH2. induction (dedup m) as [|[x w] o IH]; [constructor|]. cbn [map] in IH1. inversion IH1; subst. cbn [filter fst]. destruct (negb (beqb k x)); [|apply IH; assumption].
    cbn [map fst]. constructor; [rewrite M; tauto|]. apply IH. assumption.
  - intros k' v'. cbn [mget]. split.
    + intros [E|H]; [injection E as <- <-; rewrite beqb_refl; reflexivity|]. apply filter_In in H. destruct H as [H1 H2]. cbn [fst] in H2. apply IH2 in H1. destruct (beqb k' k) eqn:Eb; [|exact H1].
      apply beqb_true in Eb. subst. rewrite beqb_refl in H2. discriminate.
    + destruct (beqb k' k) eqn:Eb; [intros E; injection E as ->; apply beqb_true in Eb; subst; left; reflexivity|]. intros H. apply IH2 in H. right. apply filter_In. split; [exact H|]. cbn [fst].
      replace (beqb k k') with false; [reflexivity|]. symmetry. apply beqb_false. intros ->. rewrite beqb_refl in Eb. discriminate.
Qed.
