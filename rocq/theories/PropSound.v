(** * PropSound: C52 — what the user of a returned schema can rely on. *)
From Coq Require Import Permutation.
From Verif Require Import Base AST Lexer Parser LexSpec Walker WalkSpec Context Rules CtxProofs RuleProofs RuleSpec SchemaBuild Utils SchemaValidate SchemaSpec
  ValidateProofs SchemaProofs PropParse PropRules PropSdl PropBuild PropSchema PropTypes Samples Top TopProofs PropTop.

(** ** The specification *)
(** The object types and interfaces of a schema. *)
Definition composite (s : schema) (d : tydef) : Prop := exists n, mget n (sc_types s) = Some d /\ (t_kind d = KObject \/ t_kind d = KInterface).
(** [t] is a type of the schema, or lists of one, of one of these kinds *)
Definition resolves (s : schema) (ks : list tkindT) (t : ty) : Prop := exists n d, innermost t = Some n /\ mget n (sc_types s) = Some d /\ In (t_kind d) ks.
Definition good_name (n : bytes) : Prop := proper_name n /\ ~ reserved n.
Record field_sound (s : schema) (f : fielddef) : Prop := mkFs {
  fs_name : good_name (fd_name f);
  fs_type : resolves s [KScalar; KObject; KInterface; KUnion; KEnum] (fd_type f);
  fs_args_once : NoDup (map i_name (fd_args f));
  fs_args : forall a, In a (fd_args f) -> good_name (i_name a) /\ resolves s [KScalar; KEnum; KInputObject] (i_type a) }.
(** The object [d] can stand for the interface [i]: the first of its fields with the name of a field of [i] has a type at least as precise. *)
Definition stands_for (s : schema) (d i : tydef) : Prop := forall f, In f (t_fields i) -> exists before g after,
  t_fields d = before ++ g :: after /\ fd_name g = fd_name f /\ ~ In (fd_name f) (map fd_name before) /\ covariant s (fd_type g) (fd_type f).
Record sound (s : schema) : Prop := mkSound {
  so_query : exists t d, sc_query s = Some t /\ mget (name_of t) (sc_types s) = Some d /\ t_kind d = KObject;
  so_mutation : forall t d, sc_mutation s = Some t -> mget (name_of t) (sc_types s) = Some d -> t_kind d = KObject;
  so_subscription : forall t d, sc_subscription s = Some t -> mget (name_of t) (sc_types s) = Some d -> t_kind d = KObject;
  so_type_names : forall n d, mget n (sc_types s) = Some d -> good_name n \/ introspection_type n;
  so_directives : forall n d, mget n (sc_dirs s) = Some d -> good_name n /\ NoDup (map i_name (dd_args d)) /\ forall a, In a (dd_args d) -> good_name (i_name a);
  so_fields : forall d, composite s d -> t_fields d <> [] /\ forall f, In f (t_fields d) -> field_sound s f;
  so_interfaces : forall n d, mget n (sc_types s) = Some d -> t_kind d = KObject ->
    NoDup (map name_of (t_impl d)) /\ forall t, In t (t_impl d) -> exists i, mget (name_of t) (sc_types s) = Some i /\ t_kind i = KInterface /\ stands_for s d i }.

(** ** It is the same as having no violation *)
Lemma proper_dec n : {proper_name n} + {~ proper_name n}.
Proof.
  destruct n as [|c r]; [right; intros (c & r & E & _); discriminate|]. destruct (name_runes (List.length (c :: r)) 0 (c :: r)) eqn:E.
  - left. apply name_runes_proper; [discriminate|exact E].
  - right. intros H. assert (N : c :: r <> []) by discriminate. apply (name_runes_proper (c :: r) N) in H. rewrite E in H. discriminate.
Qed.
Lemma reserved_dec n : {reserved n} + {~ reserved n}.
Proof.
  destruct n as [|a [|b r]]; try (right; intros (x & E); discriminate). destruct (Ascii.ascii_dec a "_"%char) as [->|Na]; [destruct (Ascii.ascii_dec b "_"%char) as [->|Nb]|].
  - left. exists r. reflexivity.
  - right. intros (x & E). cbn in E. congruence.
  - right. intros (x & E). cbn in E. congruence.
Qed.
Lemma good_name_iff n : good_name n <-> forall e, ~ name_error n e.
Proof.
  unfold good_name, name_error. split.
  - intros [P R] e [[H _]|(_ & H & _)]; contradiction.
  - intros H. assert (R : ~ reserved n) by (intros R; apply (H (EReserved n)); left; auto). split; [|exact R]. destruct (proper_dec n) as [P|P]; [exact P|]. exfalso. apply (H (EInvalidName n)). right. auto.
Qed.
Lemma repeated_nodup {X} (l : list X) : NoDup l <-> forall x, ~ repeated x l.
Proof.
  induction l as [|y l IH]; split.
  - intros _ x (a & b & c & E). destruct a; discriminate.
  - constructor.
  - intros N x H. inversion N; subst. apply repeated_cons in H. destruct H as [[-> H]|H]; [contradiction|]. apply (proj1 IH H3 x H).
  - intros H. constructor.
    + intros I. apply (H y), repeated_cons. auto.
    + apply IH. intros x R. apply (H x), repeated_cons. auto.
Qed.
Lemma sub_named_dec s n m : {sub_named s n m} + {~ sub_named s n m}.
Proof.
  destruct (bytes_dec n m) as [E|E]; [left; apply sn_same, E|].
  destruct (mget m (sc_types s)) as [u|] eqn:Eu.
  2:{ right. intros [?|u H|d H]; [congruence|congruence|]. unfold kind_of in H. rewrite Eu in H. discriminate. }
  destruct (mget n (sc_types s)) as [d|] eqn:Ed.
  2:{ right. intros [?|u' H K L|d H L]; [congruence| |congruence]. unfold kind_of in L. rewrite Ed in L. discriminate. }
  destruct (t_kind d) eqn:Kd; try (right; intros [?|u' H K L|d' H L]; [congruence|unfold kind_of in L; rewrite Ed in L; cbn in L; congruence|congruence]).
  destruct (t_kind u) eqn:Ku; try (right; intros [?|u' H K L|d' H L]; [congruence|congruence|unfold kind_of in H; rewrite Eu in H; cbn in H; congruence]).
  - destruct (in_dec bytes_dec m (map name_of (t_impl d))) as [I|I].
    + left. apply (sn_interface s n m d); try assumption. unfold kind_of. rewrite Eu. cbn. congruence.
    + right. intros [?|u' H K L|d' H L K I']; [congruence|congruence|]. rewrite Ed in L. injection L as <-. contradiction.
  - destruct (in_dec ty_dec (TNamed n false) (t_members u)) as [I|I].
    + left. apply (sn_union s n m u); try assumption. unfold kind_of. rewrite Ed. cbn. congruence.
    + right. intros [?|u' H K L I'|d' H L K]; [congruence| |]; [rewrite Eu in H; injection H as <-; contradiction|]. unfold kind_of in H. rewrite Eu in H. cbn in H. congruence.
Qed.
Lemma null_ok_dec a b : {null_ok a b} + {~ null_ok a b}.
Proof. unfold null_ok. destruct b; [destruct a; [left; auto|right; intros H; discriminate (H eq_refl)]|left; discriminate]. Qed.
Lemma covariant_dec s a : forall b, {covariant s a b} + {~ covariant s a b}.
Proof.
  induction a as [n nn|a IH nn|]; intros [m mm|b mm|]; try (right; intros H; inversion H; fail).
  - destruct (sub_named_dec s n m) as [S|S]; [|right; intros H; inversion H; contradiction]. destruct (null_ok_dec nn mm) as [N|N]; [left; constructor; assumption|right; intros H; inversion H; contradiction].
  - destruct (IH b) as [S|S]; [|right; intros H; inversion H; contradiction]. destruct (null_ok_dec nn mm) as [N|N]; [left; constructor; assumption|right; intros H; inversion H; contradiction].
Qed.
Lemma resolves_iff s ks t : resolves s ks t <-> kind_among s ks t.
Proof.
  unfold resolves, kind_among, kind_of. split.
  - intros (n & d & H1 & H2 & H3). exists n, (t_kind d). rewrite H2. auto.
  - intros (n & k & H1 & H2 & H3). destruct (mget n (sc_types s)) as [d|] eqn:E; [|discriminate]. injection H2 as <-. exists n, d. auto.
Qed.
Lemma kind_dec (a b : tkindT) : {a = b} + {a <> b}. Proof. decide equality. Qed.
Lemma resolves_dec s ks t : {resolves s ks t} + {~ resolves s ks t}.
Proof.
  destruct (innermost t) as [n|] eqn:E; [|right; intros (n & d & H & _); congruence]. destruct (mget n (sc_types s)) as [d|] eqn:Ed; [|right; intros (n' & d & H & H' & _); congruence].
  destruct (in_dec kind_dec (t_kind d) ks) as [I|I]; [left; exists n, d; auto|]. right. intros (n' & d' & H & H' & H''). rewrite E in H. injection H as <-. rewrite Ed in H'. injection H' as <-. contradiction.
Qed.
Lemma composite_iff s d : composite s d <-> with_fields_in s d.
Proof. unfold composite, with_fields_in, type_in. split; [intros (n & H & [K|K]); eauto|intros [(n & H & K)|(n & H & K)]; eauto]. Qed.
Lemma not_among s ks t : ~ ~ kind_among s ks t -> resolves s ks t.
Proof. intros H. destruct (resolves_dec s ks t) as [R|R]; [exact R|]. exfalso. apply H. rewrite <- resolves_iff. exact R. Qed.
Lemma first_in d n : In n (map fd_name (t_fields d)) -> exists g, first_named d n g.
Proof.
  unfold first_named. induction (t_fields d) as [|f l IH]; intros H; [destruct H|]. destruct (bytes_dec (fd_name f) n) as [E|E].
  - exists f, [], l. auto.
  - destruct H as [H|H]; [contradiction|]. destruct (IH H) as (g & a & b & -> & Eg & F). exists g, (f :: a), b. split; [reflexivity|]. split; [exact Eg|constructor; assumption].
Qed.

(** The kinds of violation, one by one: a schema has none exactly when it is sound. *)
Theorem C52_sound_iff : forall s, sound s <-> whole_types s /\ forall e, ~ violation s e.
Proof.
  intros s. split.
  - intros [Q M S N D F I]. split.
    + intros d f H Hf. apply composite_iff in H. destruct (F d H) as [_ X]. destruct (X f Hf) as [_ (n & e & E & _) _ A]. split; [intros Y; congruence|].
      intros a Ha. destruct (A a Ha) as [_ (n' & e' & E' & _)]. intros Y; congruence.
    + intros e V. destruct V as [n e C X|X|d (t & E & G) K|d (t & E & G) K|d (t & E & G) K|n d a E R|d W E|d f W Hf K|d f a W Hf R|d f a W Hf Ha K|d t (n & G & K) Ht X|d n (m & G & K) X R|d i f ((n & G & K) & (t & Ht & Gt) & Ki & Hf) X|d i f g ((n & G & K) & (t & Ht & Gt) & Ki & Hf) X Y].
      * revert e X. apply good_name_iff. destruct C as [n d C|n d a C Ha|n d C Ni|d f C Hf|d f a C Hf Ha].
        -- apply (D n d C).
        -- apply (D n d C), Ha.
        -- destruct (N n d C) as [H|H]; [exact H|contradiction].
        -- apply composite_iff in C. apply (F d C), Hf.
        -- apply composite_iff in C. destruct (proj2 (F d C) f Hf) as [_ _ _ A]. apply (A a Ha).
      * destruct Q as (t & d & H1 & H2 & _). apply (X d). exists t. auto.
      * destruct Q as (t' & d' & H1 & H2 & H3). rewrite E in H1. injection H1 as <-. rewrite G in H2. injection H2 as <-. contradiction.
      * apply K, (M t d E G).
      * apply K, (S t d E G).
      * destruct (D n d E) as (_ & H & _). revert R. apply repeated_nodup, H.
      * apply composite_iff in W. destruct (F d W) as [H _]. contradiction.
      * apply composite_iff in W. apply K, resolves_iff. apply (F d W), Hf.
      * apply composite_iff in W. destruct (proj2 (F d W) f Hf) as [_ _ H _]. revert R. apply repeated_nodup, H.
      * apply composite_iff in W. destruct (proj2 (F d W) f Hf) as [_ _ _ H]. apply K, resolves_iff. apply (H a Ha).
      * destruct (proj2 (I n d G K) t Ht) as (i & Gi & Ki & _). apply X. unfold kind_of. rewrite Gi. cbn. congruence.
      * destruct (I m d G K) as [H _]. revert R. apply repeated_nodup, H.
      * destruct (proj2 (I n d G K) t Ht) as (i' & Gi & _ & St). rewrite Gt in Gi. injection Gi as <-. destruct (St f Hf) as (a & g & b & E & En & _). apply (X g); [rewrite E; apply in_elt|exact En].
      * destruct (proj2 (I n d G K) t Ht) as (i' & Gi & _ & St). rewrite Gt in Gi. injection Gi as <-. destruct (St f Hf) as (a & h & b & E & En & Na & Co). apply Y.
        destruct X as (a' & b' & E' & En' & Fa). assert (h = g); [|subst; exact Co]. clear - E E' En En' Na Fa. rewrite E in E'. clear E. revert a' Fa E'. induction a as [|x a IH]; intros [|y a'] Fa E'; cbn in E'; injection E' as Ex Er.
        -- exact Ex.
        -- inversion Fa; subst. contradiction.
        -- exfalso. subst x. apply Na. left. exact En'.
        -- inversion Fa; subst. apply (IH (fun H => Na (or_intror H)) a' H2 Er).
  - intros [W V].
    assert (GN : forall n, checked_name s n -> good_name n) by (intros n C; apply good_name_iff; intros e X; apply (V e), (vi_name s n e C X)).
    split.
    + destruct (sc_query s) as [t|] eqn:E; [destruct (mget (name_of t) (sc_types s)) as [d|] eqn:G|].
      * exists t, d. split; [reflexivity|]. split; [exact G|]. destruct (kind_dec (t_kind d) KObject) as [K|K]; [exact K|]. exfalso. eapply V. apply (vi_query s d); [exists t; auto|exact K].
      * exfalso. eapply V. apply vi_query_missing. intros d (t' & E' & G'). congruence.
      * exfalso. eapply V. apply vi_query_missing. intros d (t' & E' & G'). congruence.
    + intros t d E G. destruct (kind_dec (t_kind d) KObject) as [K|K]; [exact K|]. exfalso. eapply V. apply (vi_mutation s d); [exists t; auto|exact K].
    + intros t d E G. destruct (kind_dec (t_kind d) KObject) as [K|K]; [exact K|]. exfalso. eapply V. apply (vi_subscription s d); [exists t; auto|exact K].
    + intros n d G. destruct (in_dec bytes_dec n (map B ["__Schema"; "__Directive"; "__DirectiveLocation"; "__Type"; "__Field"; "__InputValue"; "__EnumValue"; "__TypeKind"]%string)) as [I|I]; [right; exact I|].
      left. apply GN, (cn_type s n d G I).
    + intros n d G. split; [apply GN, (cn_directive s n d G)|]. split; [|intros a Ha; apply GN, (cn_directive_arg s n d a G Ha)]. apply repeated_nodup. intros x R. eapply V. apply (vi_directive_arg s n d x G R).
    + intros d C. apply composite_iff in C. split; [intros E; eapply V; apply (vi_no_fields s d C E)|]. intros f Hf. split.
      * apply GN, (cn_field s d f C Hf).
      * apply not_among. intros K. eapply V. apply (vi_output s d f C Hf K).
      * apply repeated_nodup. intros x R. eapply V. apply (vi_field_arg s d f x C Hf R).
      * intros a Ha. split; [apply GN, (cn_field_arg s d f a C Hf Ha)|]. apply not_among. intros K. eapply V. apply (vi_input s d f a C Hf Ha K).
    + intros n d G K. assert (T : type_in s KObject d) by (exists n; auto).
      assert (Ii : forall t, In t (t_impl d) -> exists i, mget (name_of t) (sc_types s) = Some i /\ t_kind i = KInterface).
      { intros t Ht. destruct (mget (name_of t) (sc_types s)) as [i|] eqn:E; [destruct (kind_dec (t_kind i) KInterface) as [Ki|Ki]; [eauto|]|];
          (exfalso; eapply V; apply (vi_not_interface s d t T Ht); unfold kind_of; rewrite E; cbn; congruence). }
      split.
      * apply repeated_nodup. intros x R. eapply V. apply (vi_interface_twice s d x T); [|exact R]. assert (Hx : In x (map name_of (t_impl d))) by (destruct R as (a & b & c & ->); apply in_elt).
        apply in_map_iff in Hx. destruct Hx as (t & <- & Ht). destruct (Ii t Ht) as (i & E & Ki). unfold kind_of. rewrite E. cbn. congruence.
      * intros t Ht. destruct (Ii t Ht) as (i & E & Ki). exists i. split; [exact E|]. split; [exact Ki|]. intros f Hf. assert (Mp : must_provide s d i f) by (split; [exact T|split; [exists t; auto|auto]]).
        destruct (in_dec bytes_dec (fd_name f) (map fd_name (t_fields d))) as [H|H].
        -- destruct (first_in d _ H) as (g & Fg). destruct (covariant_dec s (fd_type g) (fd_type f)) as [Co|Co].
           ++ destruct Fg as (a & b & E' & En & Fa). exists a, g, b. split; [exact E'|]. split; [exact En|]. split; [|exact Co]. intros Hn. apply in_map_iff in Hn. destruct Hn as (h & Eh & Hh). rewrite Forall_forall in Fa. exact (Fa h Hh Eh).
           ++ exfalso. eapply V. apply (vi_field_type s d i f g Mp Fg Co).
        -- exfalso. eapply V. apply (vi_field_missing s d i f Mp). intros g Hg Eg. apply H, in_map_iff. exists g. auto.
Qed.
Print Assumptions C52_sound_iff.

(** ** The theorems *)
Lemma covariant_decided s a b : covariant s a b -> ~ undecided s a b.
Proof. intros C. induction C as [n nn m mm S N|a nn b mm C IH N]; intros U; inversion U; subst; auto. Qed.
Lemma sound_decided s : sound s -> ~ has_undecided s.
Proof.
  intros So (d & i & f & g & Mp & Fg & U). destruct (covariant_dec s (fd_type g) (fd_type f)) as [C|C]; [apply (covariant_decided _ _ _ C U)|]. apply C52_sound_iff in So. destruct So as [_ V]. eapply V. apply (vi_field_type s d i f g Mp Fg C).
Qed.
(** ParseSDLDoc returns a schema exactly when the source parses to a valid document from which a sound schema is built. *)
Theorem C52_returned_iff : forall fok peq ord od ot oi i s sch, (forall a b, peq a b = true -> a = b) ->
  (forall d, parse fok i = Doc d -> orders d s ord od ot oi) ->
  ((exists fuel, parse_sdl_doc fok peq fuel ord od ot oi i s = Returned sch) <-> exists d, parse fok i = Doc d /\ sdl_valid d s /\ sch = built d s ord /\ sound sch).
Proof.
  intros fok peq ord od ot oi i s sch P O. rewrite (C33_sdl_returned_iff fok peq ord od ot oi i s sch P O). split; intros (d & E & V & X).
  - destruct X as (-> & W & _ & N). exists d. repeat (split; [assumption || reflexivity|]). apply C52_sound_iff. auto.
  - destruct X as (-> & So). exists d. repeat (split; [assumption || reflexivity|]). pose proof (sound_decided _ So). apply C52_sound_iff in So. tauto.
Qed.
Print Assumptions C52_returned_iff.
Theorem C52_returned_sound : forall fok peq fuel ord od ot oi i s sch, (forall a b, peq a b = true -> a = b) ->
  (forall d, parse fok i = Doc d -> orders d s ord od ot oi) -> parse_sdl_doc fok peq fuel ord od ot oi i s = Returned sch -> sound sch.
Proof. intros fok peq fuel ord od ot oi i s sch P O H. destruct (proj1 (C52_returned_iff fok peq ord od ot oi i s sch P O) (ex_intro _ fuel H)) as (d & _ & _ & _ & So). exact So. Qed.
Print Assumptions C52_returned_sound.

(** The types that a type mentions, in all its parts. *)
Definition references (t : tydef) : list ty :=
  t_impl t ++ map fd_type (t_fields t) ++ flat_map (fun f => map i_type (fd_args f)) (t_fields t) ++ t_members t ++ map i_type (t_inputs t).
Lemma below_trans n m k : below n m -> below m k -> below n k.
Proof. intros H. induction H; [auto|]. intros X. eapply below_kid; eauto. Qed.
Lemma below_nonnil {X} (f : list X -> node) l : l <> [] -> In (f l) (nonnil f l). Proof. destruct l; [congruence|left; reflexivity]. Qed.
Lemma in_nonempty {X} (x : X) l : In x l -> l <> []. Proof. destruct l; [intros []|discriminate]. Qed.
Lemma below_inner x : forall n, innermost x = Some n -> exists nn, below (NType x) (NNamedType (TNamed n nn)).
Proof.
  induction x as [m mm|x IH mm|]; intros n E; cbn in E; [injection E as ->|destruct (IH n E) as (nn & Hb)|discriminate].
  - exists mm. eapply below_kid; [left; reflexivity|constructor].
  - exists nn. eapply below_kid; [left; reflexivity|]. eapply below_kid; [left; reflexivity|exact Hb].
Qed.
Lemma below_refs p t x : incl (nonnil NTypes (t_impl t) ++ nonnil NFieldDefinitions (t_fields t) ++ nonnil NTypes (t_members t) ++ nonnil NInputValueDefinitions (t_inputs t)) (kids p) ->
  In x (references t) -> below p (NType x).
Proof.
  intros Hk Hx. assert (K : forall m, In m (nonnil NTypes (t_impl t)) \/ In m (nonnil NFieldDefinitions (t_fields t)) \/ In m (nonnil NTypes (t_members t)) \/ In m (nonnil NInputValueDefinitions (t_inputs t)) -> below m (NType x) -> below p (NType x)).
  { intros m Hm Hb. eapply below_kid; [|exact Hb]. apply Hk. rewrite !in_app_iff. exact Hm. }
  unfold references in Hx. rewrite !in_app_iff in Hx. destruct Hx as [H|[H|[H|[H|H]]]].
  - apply (K (NTypes (t_impl t))); [left; apply below_nonnil, (in_nonempty x), H|]. eapply below_kid; [cbn; apply in_map, H|constructor].
  - apply in_map_iff in H. destruct H as (f & <- & H). apply (K (NFieldDefinitions (t_fields t))); [right; left; apply below_nonnil, (in_nonempty f), H|]. eapply below_kid; [cbn; apply in_map, H|].
    eapply below_kid; [cbn; rewrite in_app_iff; right; left; reflexivity|constructor].
  - apply in_flat_map in H. destruct H as (f & Hf & H). apply in_map_iff in H. destruct H as (a & <- & H). apply (K (NFieldDefinitions (t_fields t))); [right; left; apply below_nonnil, (in_nonempty f), Hf|].
    eapply below_kid; [cbn; apply in_map, Hf|]. eapply below_kid; [cbn; rewrite in_app_iff; left; apply below_nonnil, (in_nonempty a), H|]. eapply below_kid; [cbn; apply in_map, H|]. eapply below_kid; [cbn; left; reflexivity|constructor].
  - apply (K (NTypes (t_members t))); [right; right; left; apply below_nonnil, (in_nonempty x), H|]. eapply below_kid; [cbn; apply in_map, H|constructor].
  - apply in_map_iff in H. destruct H as (a & <- & H). apply (K (NInputValueDefinitions (t_inputs t))); [right; right; right; apply below_nonnil, (in_nonempty a), H|].
    eapply below_kid; [cbn; apply in_map, H|]. eapply below_kid; [cbn; left; reflexivity|constructor].
Qed.
Lemma numbered_in {X} (l : list X) : forall k x, In x l -> exists i, In (i, x) (combine (seq k (List.length l)) l).
Proof. induction l as [|y l IH]; intros k x H; [destruct H|]. destruct H as [->|H]; [exists k; left; reflexivity|]. destruct (IH (S k) x H) as (i & Hi). exists i. right. exact Hi. Qed.
Lemma below_definition d x : In x (doc_defs d) -> exists i, below (NDocument d) (NDefinition i x).
Proof.
  intros H. destruct (numbered_in (doc_defs d) 0 x H) as (i & Hi). exists i. eapply below_kid; [cbn; apply below_nonnil, (in_nonempty x), H|]. eapply below_kid; [cbn; apply in_map_iff; exists (i, x); split; [reflexivity|exact Hi]|constructor].
Qed.
Lemma refs_of_document d t x n : In t (type_definitions d) \/ In t (type_extensions d) -> In x (references t) -> innermost x = Some n -> In n (type_refs d).
Proof.
  intros Ht Hx En. destruct (below_inner x n En) as (nn & Hn). unfold type_refs. apply in_flat_map. exists (NNamedType (TNamed n nn)). split; [|left; reflexivity]. apply nodes_below. eapply below_trans; [|exact Hn].
  destruct Ht as [Ht|Ht]; apply in_flat_map in Ht; destruct Ht as (def & Hd & Ht); destruct (below_definition d def Hd) as (i & Hb); (destruct (def_body def) eqn:Eb; try destruct Ht; try contradiction; subst); (eapply below_trans; [exact Hb|]).
  - eapply below_kid; [cbn; rewrite Eb; left; reflexivity|]. eapply below_kid; [cbn; left; reflexivity|]. eapply below_kid; [cbn; left; reflexivity|]. eapply below_refs; [|exact Hx]. cbn [kids]. intros m Hm. rewrite !in_app_iff in *. tauto.
  - eapply below_kid; [cbn; rewrite Eb; left; reflexivity|]. eapply below_kid; [cbn; left; reflexivity|]. eapply below_kid; [cbn; left; reflexivity|]. eapply below_refs; [|exact Hx]. cbn [kids]. intros m Hm. rewrite !in_app_iff in *. tauto.
Qed.
Lemma in_plus {X} (f : tydef -> list X) b l ks (x : X) : In x (plus b (map f (of_kinds ks l))) -> In x b \/ exists y, In y l /\ In x (f y).
Proof.
  unfold plus. destruct b as [|b0 b]; [intros []|]. rewrite in_app_iff. intros [H|H]; [left; exact H|]. right. apply in_concat in H. destruct H as (z & Hz & Hx). apply in_map_iff in Hz. destruct Hz as (y & <- & Hy).
  exists y. split; [|exact Hx]. apply filter_In in Hy. apply Hy.
Qed.
Lemma merged_refs t xs x : In x (references (merged t xs)) -> In x (references t) \/ exists y, In y xs /\ In x (references y).
Proof.
  unfold references. rewrite !in_app_iff. cbn [merged t_impl t_fields t_members t_inputs]. intros [H|[H|[H|[H|H]]]].
  - apply in_plus in H. destruct H as [H|(y & Hy & H)]; [left; tauto|right; exists y; rewrite !in_app_iff; tauto].
  - apply in_map_iff in H. destruct H as (f & <- & H). apply in_plus in H. destruct H as [H|(y & Hy & H)]; [left|right; exists y; rewrite !in_app_iff; split; [exact Hy|]]; right; left; apply in_map, H.
  - apply in_flat_map in H. destruct H as (f & H & Ha). apply in_plus in H. destruct H as [H|(y & Hy & H)]; [left|right; exists y; rewrite !in_app_iff; split; [exact Hy|]]; right; right; left; apply in_flat_map; exists f; auto.
  - apply in_plus in H. destruct H as [H|(y & Hy & H)]; [left; tauto|right; exists y; rewrite !in_app_iff; tauto].
  - apply in_map_iff in H. destruct H as (a & <- & H). apply in_plus in H. destruct H as [H|(y & Hy & H)]; [left|right; exists y; rewrite !in_app_iff; split; [exact Hy|]]; do 4 right; apply in_map, H.
Qed.
(** A schema made from a source alone is closed: each type is found under its own name, and every type that any part of it mentions is
    a type of the schema, or [Int], [Float] or [Boolean], which the schema does not have unless the source defines them. *)
Theorem C52_closed : forall fok peq fuel ord od ot oi i sch, (forall a b, peq a b = true -> a = b) ->
  (forall d, parse fok i = Doc d -> orders d None ord od ot oi) -> parse_sdl_doc fok peq fuel ord od ot oi i None = Returned sch ->
  forall n t, mget n (sc_types sch) = Some t -> t_name t = n /\
    forall x m, In x (references t) -> innermost x = Some m -> (exists td, mget m (sc_types sch) = Some td) \/ In m (map B ["Int"; "Float"; "Boolean"]%string).
Proof.
  intros fok peq fuel ord od ot oi i sch P O H n t Ht. destruct (proj1 (C52_returned_iff fok peq ord od ot oi i None sch P O) (ex_intro _ fuel H)) as (d & E & V & -> & _). clear H.
  destruct (O d E) as (Ov & _). assert (T : targets_defined d None).
  { intros x Hx. destruct (dv_extensions _ _ V x Hx) as (def & Ed & _). congruence. }
  rewrite (C34_types d ord Ov T) in Ht. destruct (defined_type d n) as [t0|] eqn:Ed.
  - injection Ht as <-. unfold defined_type in Ed. pose proof (find_some _ _ Ed) as [Hi Hn]. destruct (bytes_dec n (t_name t0)) as [->|]; [|discriminate]. split; [reflexivity|]. intros x m Hx Em.
    assert (R : In m (type_refs d)).
    { apply merged_refs in Hx. destruct Hx as [Hx|(y & Hy & Hx)]; [apply (refs_of_document d t0 x m); auto|apply (refs_of_document d y x m); auto]. right. apply filter_In in Hy. apply Hy. }
    rewrite (C34_types d ord Ov T). destruct (dv_types _ _ V m R) as [(td & Etd)|Hs].
    + left. change (defined_type d m = Some td) in Etd. rewrite Etd. eauto.
    + destruct (defined_type d m); [left; eauto|]. unfold scalar_names in Hs. cbn [map In] in Hs |- *. destruct Hs as [<-|[<-|[<-|[<-|[<-|[]]]]]]; try (left; eexists; reflexivity); right; tauto.
  - unfold builtin_type in Ht. cbn [mget] in Ht. destruct (beqb n (B "ID")) eqn:E1; [|destruct (beqb n (B "String")) eqn:E2; [|discriminate]]; injection Ht as <-; (split; [symmetry; apply beqb_true; assumption|intros x m []]).
Qed.
Print Assumptions C52_closed.

(** ** What is not checked *)
(** A returned schema may still break other rules of the specification: union members that are not objects, input objects with
    fields of output types or of types the schema does not have, two fields or two enum values of one name, an implementing field
    without the arguments of the interface's field (3.6.1, 3.8, 3.9, 3.10), and a root operation type that does not exist. *)
Theorem C52_other_rules_refuted :
  (exists sch u, parse_sdl_with 9 "union U = ID | Int | ID type Query {f:U}" None = Returned sch /\ mget (B "U") (sc_types sch) = Some u /\ t_members u = map (fun n => TNamed (B n) false) ["ID"; "Int"; "ID"]%string /\ mget (B "Int") (sc_types sch) = None) /\
  (exists sch u, parse_sdl_with 9 "input I {a:Query a:Float!} type Query {f(i:I):ID}" None = Returned sch /\ mget (B "I") (sc_types sch) = Some u /\ map (fun a => (i_name a, i_type a)) (t_inputs u) = [(B "a", TNamed (B "Query") false); (B "a", TNamed (B "Float") true)]) /\
  (exists sch u, parse_sdl_with 9 "enum E {A A} type Query {f:E f:ID}" None = Returned sch /\ mget (B "Query") (sc_types sch) = Some u /\ map fd_name (t_fields u) = [B "f"; B "f"]) /\
  (exists sch u, parse_sdl_with 9 "interface N {f(a:ID!):ID} type Query implements N {f(b:String!):ID}" None = Returned sch /\ mget (B "Query") (sc_types sch) = Some u /\ map (fun f => map i_name (fd_args f)) (t_fields u) = [[B "b"]]) /\
  (exists sch, parse_sdl_with 9 "schema {query:Query mutation:Float} type Query {f:ID}" None = Returned sch /\ sc_mutation sch = Some (TNamed (B "Float") false) /\ mget (B "Float") (sc_types sch) = None).
Proof.
  split; [do 2 eexists; split; [vm_compute; reflexivity|]; split; [vm_compute; reflexivity|]; split; vm_compute; reflexivity|].
  split; [do 2 eexists; split; [vm_compute; reflexivity|]; split; vm_compute; reflexivity|].
  split; [do 2 eexists; split; [vm_compute; reflexivity|]; split; vm_compute; reflexivity|].
  split; [do 2 eexists; split; [vm_compute; reflexivity|]; split; vm_compute; reflexivity|].
  eexists; split; [vm_compute; reflexivity|]; split; vm_compute; reflexivity.
Qed.
Print Assumptions C52_other_rules_refuted.
(** The theorems apply to a source with an interface, arguments, a union, an input object and an extension. *)
Lemma with_orders i s : parse anyfloat (B i) = Doc (src i) -> let d := src i in let b := built d s (ord_of d s) in
  forall d', parse anyfloat (B i) = Doc d' -> orders d' s (ord_of d s) (dedup (sc_dirs b)) (dedup (sc_types b)) (dedup (sc_types b)).
Proof. intros E d b d' E'. rewrite E in E'. injection E' as <-. split; [apply ord_of_visits|split; [apply dedup_visits|split; apply dedup_visits]]. Qed.
Lemma with_sound fuel i s sch : parse anyfloat (B i) = Doc (src i) -> parse_sdl_with fuel i s = Returned sch -> sound sch.
Proof. intros E H. refine (C52_returned_sound _ _ _ _ _ _ _ _ _ _ _ (with_orders i s E) H). discriminate. Qed.
Definition sound_sdl : string := "interface Node {id:ID!} union Hit = User input By {name:String} type User implements Node {id:ID! hit(by:[By!]):Hit} type Query {me:User} extend type Query {n:[Node!]}".
Example C52_nonvacuous : exists sch, parse_sdl_with 9 sound_sdl None = Returned sch /\ sound sch /\
  option_map (fun t => map innermost (references t)) (mget (B "User") (sc_types sch)) = Some (map (fun n => Some (B n)) ["Node"; "ID"; "Hit"; "By"]%string).
Proof.
  assert (X : exists sch, parse_sdl_with 9 sound_sdl None = Returned sch /\ option_map (fun t => map innermost (references t)) (mget (B "User") (sc_types sch)) = Some (map (fun n => Some (B n)) ["Node"; "ID"; "Hit"; "By"]%string)) by (eexists; split; vm_compute; reflexivity).
  assert (E : parse anyfloat (B sound_sdl) = Doc (src sound_sdl)) by (vm_compute; reflexivity).
  destruct X as (sch & H1 & H2). exists sch. split; [exact H1|]. split; [apply (with_sound 9 sound_sdl None sch E H1)|exact H2].
Qed.
