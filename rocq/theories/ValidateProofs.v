(** * ValidateProofs: the subtype check and schema validation against SchemaSpec. *)
From Verif Require Import Base Utf8 Utf8Proofs AST Walker Context Rules CtxProofs SdlProofs LexSpec Utils SchemaValidate SchemaSpec.

(** ** Kinds *)
Lemma tkind_eqb_spec a b : tkind_eqb a b = true <-> a = b.
Proof. destruct a, b; cbn; split; congruence. Qed.
Lemma has_kind_spec s ks n : has_kind s ks n = true <-> exists k, kind_of s n = Some k /\ In k ks.
Proof.
  unfold has_kind, kind_of. destruct (mget n (sc_types s)) as [d|]; cbn [option_map].
  - rewrite existsb_exists. split.
    + intros (k & Hk & E). apply tkind_eqb_spec in E. exists k. subst. auto.
    + intros (k & E & Hk). injection E as <-. exists (t_kind d). split; [exact Hk|]. apply tkind_eqb_spec. reflexivity.
  - split; [discriminate|]. intros (k & E & _). discriminate.
Qed.
Lemma has_kind1 s k n : has_kind s [k] n = true <-> kind_of s n = Some k.
Proof. rewrite has_kind_spec. split; [intros (k' & E & [<-|[]]); exact E|]. intros E. exists k. split; [exact E|left; reflexivity]. Qed.
Lemma named_name t : named_of t = name_of t. Proof. destruct t; reflexivity. Qed.

(** ** Possible types *)
Definition add_impl (s : schema) (n : bytes) (m : emap (list ty)) (i : ty) : emap (list ty) :=
  if is_interface s i then mset (named_of i) (TNamed n false :: match mget (named_of i) m with Some l => l | None => [] end) m else m.
Definition listed (k : bytes) (t : ty) (m : emap (list ty)) : Prop := exists l, mget k m = Some l /\ In t l.
Lemma add_impls_spec s n is k t : forall m, listed k t (fold_left (add_impl s n) is m) <-> listed k t m \/ t = TNamed n false /\ kind_of s k = Some KInterface /\ In k (map name_of is).
Proof.
  induction is as [|i is IH]; intros m; cbn [fold_left map In]; [tauto|]. rewrite IH.
  assert (E : listed k t (add_impl s n m i) <-> listed k t m \/ t = TNamed n false /\ kind_of s k = Some KInterface /\ name_of i = k).
  { unfold add_impl. change (name_of i) with (named_of i). destruct (is_interface s i) eqn:Ei.
    - unfold is_interface in Ei. apply has_kind1 in Ei. unfold listed. destruct (beqb_spec k (named_of i)) as [->|Hn].
      + rewrite mget_mset, beqb_refl. split.
        * intros (l & E & Ht). injection E as <-. destruct Ht as [<-|Ht]; [right; auto|]. left. destruct (mget (named_of i) m) as [l|]; [eauto|destruct Ht].
        * intros [(l & E & Ht)|(-> & _)]; [rewrite E; eexists; split; [reflexivity|right; exact Ht]|eexists; split; [reflexivity|left; reflexivity]].
      + rewrite mget_mset. rewrite (proj2 (beqb_false _ _) Hn). split; [tauto|]. intros [H|(_ & _ & H)]; [exact H|congruence].
    - split; [tauto|]. intros [H|(_ & H & E)]; [exact H|]. unfold is_interface in Ei. rewrite E in Ei. apply has_kind1 in H. congruence. }
  rewrite E. tauto.
Qed.
Lemma implementations_spec s k t oi : listed k t (implementations oi s) <->
  exists n d, In (n, d) oi /\ t = TNamed n false /\ t_kind d = KObject /\ kind_of s k = Some KInterface /\ In k (map name_of (t_impl d)).
Proof.
  unfold implementations.
  set (step := fun m p => match t_kind (snd p) with KObject => fold_left _ (t_impl (snd p)) m | KInterface => _ | _ => m end).
  assert (G : forall oi m, listed k t (fold_left step oi m) <-> listed k t m \/ exists n d, In (n, d) oi /\ t = TNamed n false /\ t_kind d = KObject /\ kind_of s k = Some KInterface /\ In k (map name_of (t_impl d))).
  { clear oi. induction oi as [|[n d] oi IH]; intros m; cbn [fold_left].
    - split; [tauto|]. intros [H|(? & ? & [] & _)]. exact H.
    - rewrite IH. assert (E : listed k t (step m (n, d)) <-> listed k t m \/ t = TNamed n false /\ t_kind d = KObject /\ kind_of s k = Some KInterface /\ In k (map name_of (t_impl d))).
      { unfold step. cbn [snd fst]. destruct (t_kind d) eqn:K; try (split; [tauto|intros [H|(_ & H & _)]; [exact H|discriminate]]).
        - change (fold_left _ (t_impl d) m) with (fold_left (add_impl s n) (t_impl d) m). rewrite add_impls_spec. tauto.
        - assert (X : listed k t (if mem n m then m else mset n [] m) <-> listed k t m).
          { unfold mem. destruct (mget n m) eqn:En; [tauto|]. unfold listed. rewrite mget_mset. destruct (beqb_spec k n) as [->|]; [|tauto]. rewrite En. split; [intros (l & E & []) || intros (l & E & H)|intros (l & E & H); discriminate]. injection E as <-. destruct H. }
          rewrite X. split; [tauto|]. intros [H|(_ & H & _)]; [exact H|discriminate]. }
      rewrite E. split.
      + intros [[H|H]|(n' & d' & Hi & H)]; [tauto|right; exists n, d; split; [left; reflexivity|exact H]|right; exists n', d'; split; [right; exact Hi|exact H]].
      + intros [H|(n' & d' & [Hi|Hi] & H)]; [tauto| |right; exists n', d'; auto]. injection Hi as -> ->. left. right. exact H. }
  rewrite G. split; [|tauto]. intros [(l & E & _)|H]; [discriminate|exact H].
Qed.
(** An object type among the possible types of an abstract one. *)
Lemma possible_spec oi s n m : visits_map oi (sc_types s) -> kind_of s n = Some KObject -> kind_of s m = Some KInterface \/ kind_of s m = Some KUnion ->
  (In (TNamed n false) (possible_types oi s (TNamed m false)) <-> sub_named s n m).
Proof.
  intros [_ O] Kn Km. unfold possible_types, is_union. cbn [named_of]. destruct (has_kind s [KUnion] m) eqn:U.
  - apply has_kind1 in U. assert (U' := U). unfold kind_of in U'. destruct (mget m (sc_types s)) as [u|] eqn:Eu; [|discriminate]. injection U' as U'. split.
    + intros H. eapply sn_union; eauto.
    + intros [->|u' E' _ _ H|d H _ _ _]; [congruence| |congruence]. rewrite Eu in E'. injection E' as <-. exact H.
  - assert (Km' : kind_of s m = Some KInterface) by (destruct Km as [H|H]; [exact H|apply has_kind1 in H; congruence]).
    pose proof (implementations_spec s m (TNamed n false) oi) as I. unfold listed in I.
    assert (J : In (TNamed n false) (match mget m (implementations oi s) with Some l => l | None => [] end) <-> exists l, mget m (implementations oi s) = Some l /\ In (TNamed n false) l).
    { destruct (mget m _) as [l|]; split; [eauto|intros (l' & E & H); congruence|intros []|intros (l' & E & H); discriminate]. }
    rewrite J, I. split.
    + intros (n' & d & Hi & E & K & _ & H). injection E as <-. apply O in Hi. eapply sn_interface; eauto.
    + intros [->|u E K _ _|d _ E K H]; [congruence|unfold kind_of in Km'; rewrite E in Km'; cbn in Km'; congruence|]. exists n, d. rewrite O. auto.
Qed.

(** ** The loop of IsPossibleType *)
Section Sub.
  Variable peq : ty -> ty -> bool.
  Hypothesis peq_ok : forall a b, peq a b = true -> a = b.
  Lemma go_eq_eq a b : go_eq peq a b = true -> a = b.
  Proof.
    destruct a, b; cbn; try discriminate; try reflexivity; rewrite andb_true_iff.
    - rewrite beqb_true, Bool.eqb_true_iff. intros [-> ->]. reflexivity.
    - rewrite Bool.eqb_true_iff. intros [H ->]. apply peq_ok in H. subst. reflexivity.
  Qed.
  Lemma go_eq_named n x t : go_eq peq t (TNamed n x) = true <-> t = TNamed n x.
  Proof. split; [apply go_eq_eq|]. intros ->. cbn. rewrite beqb_refl, Bool.eqb_reflx. reflexivity. Qed.
  (** found, or never *)
  Lemma loop_found n rest : forall iter len fuel, In (TNamed n false) rest -> (iter + Z.of_nat (List.length rest) <= len)%Z -> List.length rest <= fuel -> possible_loop peq fuel rest iter len (TNamed n false) = GOk true.
  Proof.
    induction rest as [|t rest IH]; intros iter len fuel Hin Hl Hf; [destruct Hin|]. destruct fuel; [cbn in Hf; lia|]. cbn [possible_loop gen_next]. cbn [List.length] in Hl, Hf.
    replace (iter <? len)%Z with true by lia. destruct (go_eq peq t (TNamed n false)) eqn:E; [reflexivity|]. apply IH; [|lia|lia]. destruct Hin as [->|H]; [|exact H]. rewrite (proj2 (go_eq_named _ _ _) eq_refl) in E. discriminate.
  Qed.
  Lemma loop_never n fuel : n <> [] -> forall rest iter len, ~ In (TNamed n false) rest -> (0 <= len)%Z -> (iter + Z.of_nat (List.length rest) <= len)%Z -> possible_loop peq fuel rest iter len (TNamed n false) = GLoop.
  Proof.
    intros Hn. induction fuel as [|fuel IH]; intros rest iter len Hin Hp Hl; [reflexivity|]. cbn [possible_loop]. destruct rest as [|t rest]; cbn [gen_next].
    - replace (-1 <? len)%Z with true by lia. cbn [go_eq zero_type]. destruct n as [|c n]; [congruence|]. cbn [beqb andb]. apply IH; auto.
    - cbn [List.length] in Hl. replace (iter <? len)%Z with true by lia. destruct (go_eq peq t (TNamed n false)) eqn:E.
      + apply go_eq_eq in E. exfalso. apply Hin. left. exact E.
      + apply IH; [intros H; apply Hin; right; exact H|exact Hp|lia].
  Qed.
  (** The element type of nothing: the zero type itself is found at once, whether possible or not. *)
  Variable oi : emap tydef.
  Variable s : schema.
  Hypothesis O : visits_map oi (sc_types s).
  Hypothesis Named : kind_of s [] = None.
  Definition leaf (n m : bytes) : go bool -> nat -> Prop := fun r fuel =>
    if is_abstract s (TNamed m false) && is_object s (TNamed n false) then r = is_possible peq fuel oi s (TNamed m false) (TNamed n false) else r = GOk false.

  (** [decides a b r]: what the check ends in, given fuel enough. *)
  Definition decides (a b : ty) (r : option bool) : Prop :=
    match r with
    | Some x => exists k, forall fuel, k <= fuel -> is_subtype peq fuel oi s a b = GOk x
    | None => forall fuel, is_subtype peq fuel oi s a b = GLoop
    end.
  Lemma decides_step a b a' b' r : (forall fuel, is_subtype peq (S fuel) oi s a b = is_subtype peq fuel oi s a' b') -> decides a' b' r -> decides a b r.
  Proof.
    intros H D. unfold decides in *. destruct r as [x|].
    - destruct D as (k & D). exists (S k). intros [|fuel] Hf; [lia|]. rewrite H. apply D. lia.
    - intros [|fuel]; [reflexivity|]. rewrite H. apply D.
  Qed.
  Lemma decides_done a b x : (forall fuel, is_subtype peq (S fuel) oi s a b = GOk x) -> decides a b (Some x).
  Proof. intros H. exists 1. intros [|fuel] Hf; [lia|]. apply H. Qed.
  Lemma abstract_spec m nn : is_abstract s (TNamed m nn) = true <-> kind_of s m = Some KInterface \/ kind_of s m = Some KUnion.
  Proof. unfold is_abstract, is_interface, is_union. cbn [named_of]. rewrite orb_true_iff, !has_kind1. tauto. Qed.
  Lemma object_spec m nn : is_object s (TNamed m nn) = true <-> kind_of s m = Some KObject.
  Proof. unfold is_object. cbn [named_of]. apply has_kind1. Qed.
  Lemma sub_named_dec n m : kind_of s n = Some KObject -> kind_of s m = Some KInterface \/ kind_of s m = Some KUnion -> {sub_named s n m} + {~ sub_named s n m}.
  Proof.
    intros Kn Km. assert (D : {In (TNamed n false) (possible_types oi s (TNamed m false))} + {~ In (TNamed n false) (possible_types oi s (TNamed m false))}).
    { apply in_dec. intros x y. decide equality; try apply bool_dec. apply list_eq_dec. apply ascii_dec. }
    destruct D as [D|D]; [left; apply (possible_spec oi); assumption|right; rewrite <- (possible_spec oi s n m O Kn Km); exact D].
  Qed.
  Lemma same_named n m nn : covariant s (TNamed n nn) (TNamed m nn) <-> sub_named s n m.
  Proof. split; [intros H; inversion H; assumption|]. intros H. constructor; [exact H|]. intros E. exact E. Qed.
  (** two nullable named types *)
  Lemma named_decides n m : (sub_named s n m /\ decides (TNamed n false) (TNamed m false) (Some true)) \/
    (undecided s (TNamed n false) (TNamed m false) /\ decides (TNamed n false) (TNamed m false) None) \/
    (~ sub_named s n m /\ ~ undecided s (TNamed n false) (TNamed m false) /\ decides (TNamed n false) (TNamed m false) (Some false)).
  Proof.
    destruct (beqb_spec n m) as [->|Hn].
    - left. split; [apply sn_same; reflexivity|]. apply decides_done. intros fuel. cbn [is_subtype go_eq]. rewrite beqb_refl. reflexivity.
    - assert (St : forall fuel, is_subtype peq (S fuel) oi s (TNamed n false) (TNamed m false) =
          if is_abstract s (TNamed m false) && is_object s (TNamed n false) then is_possible peq fuel oi s (TNamed m false) (TNamed n false) else GOk false).
      { intros fuel. cbn [is_subtype go_eq nonnull]. rewrite (proj2 (beqb_false _ _) Hn). reflexivity. }
      destruct (is_abstract s (TNamed m false)) eqn:A; [destruct (is_object s (TNamed n false)) eqn:Ob|]; cbn [andb] in St.
      + apply abstract_spec in A. apply object_spec in Ob. destruct (sub_named_dec n m Ob A) as [Y|Y].
        * left. split; [exact Y|]. apply (possible_spec oi s n m O Ob A) in Y. set (ts := possible_types oi s (TNamed m false)) in *. exists (S (List.length ts)). intros [|fuel] Hf; [lia|].
          rewrite St. unfold is_possible. fold ts. apply loop_found; [exact Y|lia|lia].
        * right. left. split; [constructor; auto; intros E; exact E|]. intros [|fuel]; [reflexivity|]. rewrite St. unfold is_possible.
          assert (Hne : n <> []) by (intros ->; congruence). apply loop_never; [exact Hne| |lia|lia]. rewrite (possible_spec oi s n m O Ob A). exact Y.
      + right. right. assert (X : kind_of s n <> Some KObject) by (intros H; apply (object_spec n false) in H; congruence). repeat split.
        * intros [E|u E K H _|d H E K _]; [congruence|congruence|]. apply X. unfold kind_of. rewrite E. cbn. congruence.
        * intros H. inversion H; subst. congruence.
        * apply decides_done. exact St.
      + right. right. assert (X : ~ (kind_of s m = Some KInterface \/ kind_of s m = Some KUnion)) by (intros H; apply (abstract_spec m false) in H; congruence). repeat split.
        * intros [E|u E K H _|d H E K _]; [congruence| |tauto]. apply X. right. unfold kind_of. rewrite E. cbn. congruence.
        * intros H. inversion H; subst. tauto.
        * apply decides_done. exact St.
  Qed.

  Definition trichotomy (a b : ty) : Prop :=
    (covariant s a b /\ decides a b (Some true)) \/ (undecided s a b /\ decides a b None) \/ (~ covariant s a b /\ ~ undecided s a b /\ decides a b (Some false)).
  Lemma covariant_refl a : whole a -> covariant s a a.
  Proof. unfold whole. induction a as [n nn|a IH nn|]; cbn; intros W; [constructor; [apply sn_same; reflexivity|intros E; exact E]|constructor; [apply IH, W|intros E; exact E]|congruence]. Qed.
  Lemma undecided_irrefl a : ~ undecided s a a.
  Proof. induction a as [n nn|a IH nn|]; intros H; inversion H; subst; [|auto]. match goal with X : ~ sub_named _ _ _ |- _ => apply X end. apply sn_same. reflexivity. Qed.
  (** nullability *)
  Lemma tri_equal a b : whole a -> go_eq peq a b = true -> trichotomy a b.
  Proof. intros W E. pose proof (go_eq_eq _ _ E) as ->. left. split; [apply covariant_refl; exact W|]. apply decides_done. intros fuel. cbn [is_subtype]. rewrite E. reflexivity. Qed.
  Lemma cov_nullable a b : nonnull a = true -> (covariant s a b <-> covariant s (nullable a) (nullable b)).
  Proof.
    intros Na. split; intros H; destruct a as [n nn|a nn|], b as [m mm|b mm|]; cbn in *; subst; inversion H; subst; constructor; try assumption; intros E; congruence.
  Qed.
  Lemma und_nullable a b : nonnull a = true -> (undecided s a b <-> undecided s (nullable a) (nullable b)).
  Proof.
    intros Na. split; intros H; destruct a as [n nn|a nn|], b as [m mm|b mm|]; cbn in *; subst; inversion H; subst; constructor; try assumption; intros E; congruence.
  Qed.
  Lemma nullable_id b : nonnull b = false -> nullable b = b. Proof. destruct b; cbn; congruence. Qed.
  Lemma not_null_ok a b : nonnull a = false -> nonnull b = true -> ~ covariant s a b /\ ~ undecided s a b.
  Proof.
    intros Na Nb. split; intros H; inversion H; subst; cbn in *; subst;
      match goal with X : null_ok _ _ |- _ => specialize (X eq_refl); discriminate end.
  Qed.
  Lemma tri_nullable a b : trichotomy (nullable a) (nullable b) -> whole a -> trichotomy a b.
  Proof.
    intros T W. destruct (go_eq peq a b) eqn:E; [apply tri_equal; assumption|]. destruct (nonnull a) eqn:Na.
    - unfold trichotomy in *. rewrite (cov_nullable a b Na), (und_nullable a b Na).
      assert (D : forall r, decides (nullable a) (nullable b) r -> decides a b r).
      { intros r. apply decides_step. intros fuel. cbn [is_subtype]. rewrite E, Na. destruct (nonnull b) eqn:Nb; [reflexivity|]. rewrite (nullable_id b Nb). reflexivity. }
      destruct T as [[C T]|[[C T]|(C & C' & T)]]; [left|right; left|right; right]; auto.
    - destruct (nonnull b) eqn:Nb.
      + right. right. destruct (not_null_ok a b Na Nb) as [X Y]. split; [exact X|]. split; [exact Y|]. apply decides_done. intros fuel. cbn [is_subtype]. rewrite E, Nb, Na. reflexivity.
      + rewrite (nullable_id a Na), (nullable_id b Nb) in T. exact T.
  Qed.
  Lemma subtype_decided : forall a b, whole a -> whole b -> trichotomy a b.
  Proof.
    induction a as [n nn|a IH nn|]; intros b Wa Wb; [| |congruence || (unfold whole in Wa; cbn in Wa; congruence)].
    - apply tri_nullable; [|exact Wa]. destruct b as [m mm|b mm|]; cbn [nullable]; [| |unfold whole in Wb; cbn in Wb; congruence].
      + destruct (named_decides n m) as [[C T]|[[C T]|(C & C' & T)]]; [left|right; left|right; right]; rewrite ?same_named; auto.
      + right. right. split; [intros H; inversion H|]. split; [intros H; inversion H|]. apply decides_done. reflexivity.
    - apply tri_nullable; [|exact Wa]. destruct b as [m mm|b mm|]; cbn [nullable]; [| |unfold whole in Wb; cbn in Wb; congruence].
      + right. right. split; [intros H; inversion H|]. split; [intros H; inversion H|]. apply decides_done. reflexivity.
      + destruct (go_eq peq (TList a false) (TList b false)) eqn:E; [apply tri_equal; [exact Wa|exact E]|].
        assert (D : forall r, decides a b r -> decides (TList a false) (TList b false) r).
        { intros r. apply decides_step. intros fuel. cbn [is_subtype]. rewrite E. reflexivity. }
        assert (Cl : covariant s (TList a false) (TList b false) <-> covariant s a b) by (split; intros H; [inversion H; assumption|constructor; [exact H|intros X; exact X]]).
        assert (Ul : undecided s (TList a false) (TList b false) <-> undecided s a b) by (split; intros H; [inversion H; assumption|constructor; [exact H|intros X; exact X]]).
        unfold trichotomy. rewrite Cl, Ul. destruct (IH b Wa Wb) as [[C T]|[[C T]|(C & C' & T)]]; [left|right; left|right; right]; auto.
  Qed.
End Sub.
