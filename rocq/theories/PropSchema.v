(** * PropSchema: C36, C40 and C45 — type references, schema validation, lookups by name. *)
From Verif Require Import Base AST Walker Context Rules Utils SchemaValidate SchemaSpec ValidateProofs SchemaProofs SchemaBuild PropRules PropSdl PropBuild Samples.

(** ** C36: the subtype check.
    [peq]: which pointers to element types are the same; [oi]: the order in which the map of types is visited. *)
Theorem C36_subtype_exact : forall peq oi s, (forall a b, peq a b = true -> a = b) -> visits_map oi (sc_types s) -> kind_of s [] = None ->
  forall a b, whole a -> whole b ->
  ((exists fuel, is_subtype peq fuel oi s a b = GOk true) <-> covariant s a b) /\
  ((exists fuel, is_subtype peq fuel oi s a b = GOk false) <-> ~ covariant s a b /\ ~ undecided s a b) /\
  ((forall fuel, is_subtype peq fuel oi s a b = GLoop) <-> undecided s a b) /\
  (forall fuel, is_subtype peq fuel oi s a b <> GPanic).
Proof.
  intros peq oi s P O N a b Wa Wb. assert (R := fun fuel r => subtype_result peq P oi s O N fuel a b r Wa Wb). split; [|split; [|split]].
  - split; [intros (fuel & E); apply (R fuel true E); reflexivity|]. intros C. destruct (subtype_decided peq P oi s O N a b Wa Wb) as [[_ (k & T)]|[[U _]|(C' & _)]]; [exists k; apply T; lia| |contradiction].
    exfalso. apply (cov_not_und s a b C U).
  - split; [intros (fuel & E); destruct (R fuel false E) as [C U]; split; [|exact U]; intros C'; apply C in C'; discriminate|]. intros [C U].
    destruct (subtype_decided peq P oi s O N a b Wa Wb) as [[C' _]|[[U' _]|(_ & _ & (k & T))]]; [contradiction|contradiction|exists k; apply T; lia].
  - destruct (subtype_decided peq P oi s O N a b Wa Wb) as [[C (k & T)]|[[U T]|(C & U & (k & T))]]; split; intros H; try assumption.
    + specialize (H k). rewrite T in H by lia. discriminate.
    + exfalso. apply (cov_not_und s a b C H).
    + specialize (H k). rewrite T in H by lia. discriminate.
    + contradiction.
  - intros fuel. apply (subtype_no_panic peq oi s fuel a b Wa Wb).
Qed.
Print Assumptions C36_subtype_exact.
(** It terminates when the super type is of a concrete kind, or the sub type not an object type; *)
Theorem C36_subtype_terminates : forall peq oi s, (forall a b, peq a b = true -> a = b) -> visits_map oi (sc_types s) -> kind_of s [] = None ->
  forall a b, whole a -> whole b -> ~ kind_among s [KObject] a \/ ~ kind_among s [KInterface; KUnion] b ->
  exists fuel r, is_subtype peq fuel oi s a b = GOk r /\ (r = true <-> covariant s a b).
Proof.
  intros peq oi s P O N a b Wa Wb H. destruct (subtype_decided peq P oi s O N a b Wa Wb) as [[C (k & T)]|[[U _]|(C & _ & (k & T))]].
  - exists k, true. split; [apply T; lia|]. tauto.
  - exfalso. assert (X : kind_among s [KObject] a /\ kind_among s [KInterface; KUnion] b); [|tauto]. clear - U. induction U as [n nn m mm Kn Km _ _|a nn b mm _ [IH1 IH2] _].
    + split; [exists n, KObject; cbn; auto|]. destruct Km as [Km|Km]; [exists m, KInterface|exists m, KUnion]; cbn; auto.
    + split; [exact IH1|exact IH2].
  - exists k, false. split; [apply T; lia|]. split; [discriminate|contradiction].
Qed.
Print Assumptions C36_subtype_terminates.
(** and in general it does not: IsPossibleType's loop goes on for ever when the type is not found. *)
Definition noptr (a b : ty) : bool := false.
Definition s_loop : schema := built (src "interface I {f:J} interface J {g:ID} type A implements I {f:B} type B {g:ID} type Query {a:A}") None [].
Lemma visits_self {V} (m : emap V) : NoDup (map fst m) -> visits_map m m.
Proof.
  intros H. split; [exact H|]. intros k v. split; [|apply BuildProofs.mget_In]. intros Hi. apply BuildProofs.In_mget; assumption.
Qed.
Lemma nodup_check l : (fix go (l : list bytes) := match l with [] => true | x :: l => negb (existsb (beqb x) l) && go l end) l = true -> NoDup l.
Proof.
  induction l as [|x l IH]; intros H; [constructor|]. apply andb_true_iff in H. destruct H as [H1 H2]. constructor; [|apply IH, H2]. intros Hx. apply negb_true_iff in H1. assert (existsb (beqb x) l = true); [|congruence].
  apply existsb_exists. exists x. split; [exact Hx|apply beqb_refl].
Qed.
Theorem C36_subtype_terminates_refuted : forall fuel, is_subtype noptr fuel (sc_types s_loop) s_loop (TNamed (B "B") false) (TNamed (B "J") false) = GLoop.
Proof.
  assert (O : visits_map (sc_types s_loop) (sc_types s_loop)) by (apply visits_self, nodup_check; vm_compute; reflexivity).
  assert (N : kind_of s_loop [] = None) by (vm_compute; reflexivity).
  apply (C36_subtype_exact noptr (sc_types s_loop) s_loop); [discriminate|exact O|exact N|discriminate|discriminate|].
  constructor; [vm_compute; reflexivity|left; vm_compute; reflexivity| |intros H; discriminate].
  rewrite <- (possible_spec _ s_loop (B "B") (B "J") O); [|vm_compute; reflexivity|left; vm_compute; reflexivity]. intros H. vm_compute in H. destruct H.
Qed.
Print Assumptions C36_subtype_terminates_refuted.

(** ** C36: schema validation.  Every violation is reported, and nothing else is (whatever the orders of the maps). *)
Theorem C36_schema_errors_exact : forall peq fuel od ot oi s es es', (forall a b, peq a b = true -> a = b) ->
  visits_map od (sc_dirs s) -> visits_map ot (sc_types s) -> visits_map oi (sc_types s) -> kind_of s [] = None -> whole_types s ->
  validate_schema peq fuel od ot oi s es = GOk es' -> forall e, In e es' <-> violation s e \/ In e es.
Proof. intros peq fuel od ot oi s es es' P Od Ot O N W E. exact (outs_schema peq P od ot oi s Od Ot O N W fuel es es' E). Qed.
Print Assumptions C36_schema_errors_exact.
Theorem C36_schema_valid_iff : forall peq fuel od ot oi s es', (forall a b, peq a b = true -> a = b) ->
  visits_map od (sc_dirs s) -> visits_map ot (sc_types s) -> visits_map oi (sc_types s) -> kind_of s [] = None -> whole_types s ->
  validate_schema peq fuel od ot oi s [] = GOk es' -> (es' = [] <-> forall e, ~ violation s e).
Proof.
  intros peq fuel od ot oi s es' P Od Ot O N W E. pose proof (C36_schema_errors_exact peq fuel od ot oi s [] es' P Od Ot O N W E) as H. split.
  - intros -> e V. apply (H e). left. exact V.
  - intros V. destruct es' as [|e es']; [reflexivity|]. exfalso. destruct (proj1 (H e)) as [X|[]]; [left; reflexivity|]. apply (V e X).
Qed.
Print Assumptions C36_schema_valid_iff.
(** It terminates exactly when no field stands for an interface field at an undecided type. *)
Theorem C36_schema_terminates_iff : forall peq od ot oi s, (forall a b, peq a b = true -> a = b) ->
  visits_map od (sc_dirs s) -> visits_map ot (sc_types s) -> visits_map oi (sc_types s) -> kind_of s [] = None -> whole_types s ->
  (~ has_undecided s -> exists k, forall fuel, k <= fuel -> forall es, exists es', validate_schema peq fuel od ot oi s es = GOk es') /\
  (has_undecided s -> forall fuel es, validate_schema peq fuel od ot oi s es = GLoop).
Proof.
  intros peq od ot oi s P Od Ot O N W. split; [apply (halts_schema peq P od ot oi s Ot O N W)|]. intros U fuel es. pose proof (never_schema peq P od ot oi s Ot O N W fuel U es) as H.
  pose proof (calm_schema peq od ot oi s Ot W fuel es) as H1. destruct (validate_schema peq fuel od ot oi s es) as [es'| |]; [exfalso; apply (H es'); reflexivity|congruence|reflexivity].
Qed.
Print Assumptions C36_schema_terminates_iff.
Theorem C36_never_panics_on_whole_types : forall peq fuel od ot oi s es, visits_map ot (sc_types s) -> whole_types s -> validate_schema peq fuel od ot oi s es <> GPanic.
Proof. intros. apply calm_schema; assumption. Qed.
Print Assumptions C36_never_panics_on_whole_types.
(** A sufficient condition that can be read off a schema: interface fields have no abstract type. *)
Theorem C36_schema_terminates : forall peq od ot oi s, (forall a b, peq a b = true -> a = b) ->
  visits_map od (sc_dirs s) -> visits_map ot (sc_types s) -> visits_map oi (sc_types s) -> kind_of s [] = None -> whole_types s ->
  (forall i f, type_in s KInterface i -> In f (t_fields i) -> ~ kind_among s [KInterface; KUnion] (fd_type f)) ->
  exists fuel es', validate_schema peq fuel od ot oi s [] = GOk es' /\ forall e, In e es' <-> violation s e.
Proof.
  intros peq od ot oi s P Od Ot O N W H. destruct (proj1 (C36_schema_terminates_iff peq od ot oi s P Od Ot O N W)) as (k & T).
  - intros (d & i & f & g & (_ & (t & _ & Et) & Ki & Hf) & _ & U). apply (H i f); [exists (name_of t); auto|exact Hf|]. clear - U. induction U as [n nn m mm _ Km _ _|a nn b mm _ IH _].
    + destruct Km as [Km|Km]; [exists m, KInterface|exists m, KUnion]; cbn; auto.
    + exact IH.
  - destruct (T k (le_n k) []) as (es' & E). exists k, es'. split; [exact E|]. intros e. rewrite (C36_schema_errors_exact peq k od ot oi s [] es' P Od Ot O N W E e). cbn. tauto.
Qed.
Print Assumptions C36_schema_terminates.
(** Checks for the examples *)
Definition whole_typesb (s : schema) : bool :=
  forallb (fun p => forallb (fun f => match innermost (fd_type f) with Some _ => true | None => false end &&
                                     forallb (fun a => match innermost (i_type a) with Some _ => true | None => false end) (fd_args f)) (t_fields (snd p))) (sc_types s).
Lemma whole_check s : whole_typesb s = true -> whole_types s.
Proof.
  intros H d f Hd Hf. assert (X : exists n, mget n (sc_types s) = Some d) by (destruct Hd as [(n & E & _)|(n & E & _)]; eauto). destruct X as (n & E). apply BuildProofs.mget_In in E.
  unfold whole_typesb in H. rewrite forallb_forall in H. specialize (H _ E). rewrite forallb_forall in H. specialize (H f Hf). apply andb_true_iff in H. destruct H as [H1 H2]. unfold whole. split.
  - destruct (innermost (fd_type f)); [discriminate|discriminate H1].
  - intros a Ha. rewrite forallb_forall in H2. specialize (H2 a Ha). destruct (innermost (i_type a)); [discriminate|discriminate H2].
Qed.
Lemma visits_check {V} (m : emap V) : (fix go (l : list bytes) := match l with [] => true | x :: l => negb (existsb (beqb x) l) && go l end) (map fst m) = true -> visits_map m m.
Proof. intros H. apply visits_self, nodup_check, H. Qed.
Definition type_at (s : schema) (n : string) : tydef := match mget (B n) (sc_types s) with Some d => d | None => scalar_type [] end.
Definition field_at (d : tydef) (k : nat) : fielddef := nth k (t_fields d) (mkFd [] [] [] TListNil []).
(** The whole of schema validation hangs. *)
Theorem C36_schema_terminates_refuted : forall fuel es, validate_schema noptr fuel (sc_dirs s_loop) (sc_types s_loop) (sc_types s_loop) s_loop es = GLoop.
Proof.
  assert (Ot : visits_map (sc_types s_loop) (sc_types s_loop)) by (apply visits_check; vm_compute; reflexivity).
  assert (Od : visits_map (sc_dirs s_loop) (sc_dirs s_loop)) by (apply visits_check; vm_compute; reflexivity).
  assert (N : kind_of s_loop [] = None) by (vm_compute; reflexivity). assert (W : whole_types s_loop) by (apply whole_check; vm_compute; reflexivity).
  apply (C36_schema_terminates_iff noptr (sc_dirs s_loop) (sc_types s_loop) (sc_types s_loop) s_loop); try assumption; [discriminate|].
  assert (U : undecided s_loop (TNamed (B "B") false) (TNamed (B "J") false)).
  { apply (C36_subtype_exact noptr (sc_types s_loop) s_loop); [discriminate|exact Ot|exact N|discriminate|discriminate|apply C36_subtype_terminates_refuted]. }
  exists (type_at s_loop "A"), (type_at s_loop "I"), (field_at (type_at s_loop "I") 0), (field_at (type_at s_loop "A") 0). split; [|split].
  - split; [exists (B "A"); split; vm_compute; reflexivity|]. split; [exists (TNamed (B "I") false); split; vm_compute; [left; reflexivity|reflexivity]|]. split; [vm_compute; reflexivity|]. vm_compute. left. reflexivity.
  - exists [], []. split; [vm_compute; reflexivity|]. split; [vm_compute; reflexivity|constructor].
  - exact U.
Qed.
Print Assumptions C36_schema_terminates_refuted.
(** And it panics on a type that the parser lets through (C11: the error after [[] is swallowed). *)
Definition s_panic : schema := built (src "type Query {f:[ }") None [].
Theorem C36_never_panics_refuted : forall fuel es, validate_schema noptr fuel (sc_dirs s_panic) (sc_types s_panic) (sc_types s_panic) s_panic es = GPanic.
Proof. intros fuel es. vm_compute. reflexivity. Qed.
Print Assumptions C36_never_panics_refuted.
Definition s_good : schema := built (src "interface Node {id:ID! peers(first:ID):[Node]} type User implements Node {id:ID! peers(first:ID):[User!]! name:String} union Any=User|Query type Query {me:User any:Any n:[Node!]}") None [].
Definition s_bad : schema := built (src "schema {query:E mutation:E} interface Node {id:ID! n:Node} interface Empty type __User implements Node & Node & E & Empty {id:ID x(a:ID a:Node):In} enum E {A} input In {x:ID}") None [].
Example C36_nonvacuous :
  (visits_map (sc_dirs s_good) (sc_dirs s_good) /\ visits_map (sc_types s_good) (sc_types s_good) /\ kind_of s_good [] = None /\ whole_types s_good /\
   validate_schema noptr 20 (sc_dirs s_good) (sc_types s_good) (sc_types s_good) s_good [] = GOk []) /\
  (visits_map (rev (sc_dirs s_bad)) (sc_dirs s_bad) /\ visits_map (rev (sc_types s_bad)) (sc_types s_bad) /\ kind_of s_bad [] = None /\ whole_types s_bad /\
   exists es, validate_schema noptr 20 (rev (sc_dirs s_bad)) (rev (sc_types s_bad)) (sc_types s_bad) s_bad [] = GOk es /\ map message (rev es) =
     map B ["Query root type must be Object type."; "Mutation root type must be Object type if provided."; "Name ""__User"" must not begin with ""__"" which is reserved by GraphQL introspection.";
       "The type of __User.x must be Output Type."; "Field argument __User.x(a:) can only be defined once."; "The type of __User.x(a:) must be Input Type.";
       "Interface field Node.id expects type ID! but __User.id is type ID"; "Interface field Node.n expected but __User does not provide it."; "Type __User can only implement Node once.";
       "Type __User must only implement Interface types, it cannot implement E"; "Type Empty must define one or more fields."]%string).
Proof.
  split.
  - split; [apply visits_check; vm_compute; reflexivity|]. split; [apply visits_check; vm_compute; reflexivity|]. split; [vm_compute; reflexivity|]. split; [apply whole_check; vm_compute; reflexivity|vm_compute; reflexivity].
  - assert (R : forall V (m : emap V), visits_map m m -> visits_map (rev m) m).
    { intros V m [H1 H2]. split; [rewrite map_rev; apply NoDup_rev, H1|]. intros k v. rewrite <- in_rev. apply H2. }
    split; [apply R, visits_check; vm_compute; reflexivity|]. split; [apply R, visits_check; vm_compute; reflexivity|]. split; [vm_compute; reflexivity|]. split; [apply whole_check; vm_compute; reflexivity|].
    eexists. split; vm_compute; reflexivity.
Qed.

(** ** C40: names *)
Theorem C40_exact : forall n es,
  (reserved n -> validate_name n es = GOk (EReserved n :: es)) /\ (~ reserved n -> proper_name n -> validate_name n es = GOk es) /\
  (~ reserved n -> ~ proper_name n -> validate_name n es = GOk (EInvalidName n :: es)).
Proof.
  intros n es. pose proof (reserved_test n) as R. pose proof (name_runes_proper n) as Pn. unfold validate_name. destruct n as [|c r].
  - split; [intros (r & H); discriminate|]. split; [intros _ (? & ? & H & _); discriminate|reflexivity].
  - specialize (Pn ltac:(discriminate)). destruct (Ascii.eqb c "_"%char && _).
    + assert (X : reserved (c :: r)) by (apply R; reflexivity). split; [reflexivity|]. split; contradiction.
    + assert (X : ~ reserved (c :: r)) by (rewrite <- R; congruence). split; [contradiction|]. split; intros _ H.
      * apply Pn in H. rewrite H. reflexivity.
      * destruct (name_runes _ _ _); [|reflexivity]. exfalso. apply H, Pn. reflexivity.
Qed.
Print Assumptions C40_exact.
(** In a schema: exactly the names of directives, their arguments, types other than the introspection types, the fields of object and
    interface types and their arguments are checked (enum values, input fields and unions are not). *)
Theorem C40_schema_exact : forall peq fuel od ot oi s es', (forall a b, peq a b = true -> a = b) ->
  visits_map od (sc_dirs s) -> visits_map ot (sc_types s) -> visits_map oi (sc_types s) -> kind_of s [] = None -> whole_types s ->
  validate_schema peq fuel od ot oi s [] = GOk es' -> forall n,
  (In (EReserved n) es' <-> checked_name s n /\ reserved n) /\ (In (EInvalidName n) es' <-> checked_name s n /\ ~ reserved n /\ ~ proper_name n).
Proof.
  intros peq fuel od ot oi s es' P Od Ot O N W E n. rewrite !(C36_schema_errors_exact peq fuel od ot oi s [] es' P Od Ot O N W E). cbn [In]. split; split.
  - intros [V|[]]. inversion V; subst. destruct H0 as [[H1 H2]|(_ & _ & H2)]; [|discriminate]. injection H2 as ->. auto.
  - intros [C R]. left. apply (vi_name s n); [exact C|]. left. auto.
  - intros [V|[]]. inversion V; subst. destruct H0 as [[H1 H2]|(H1 & H3 & H2)]; [discriminate|]. injection H2 as ->. auto.
  - intros (C & R & Q). left. apply (vi_name s n); [exact C|]. right. auto.
Qed.
Print Assumptions C40_schema_exact.
Example C40_nonvacuous : ~ reserved (B "_x9") /\ proper_name (B "_x9") /\ reserved (B "__") /\ ~ reserved (B "9a") /\ ~ proper_name (B "9a") /\
  validate_name (B "_x9") [] = GOk [] /\ validate_name (B "__") [] = GOk [EReserved (B "__")] /\ validate_name (B "9a") [] = GOk [EInvalidName (B "9a")] /\ validate_name (bz 195 :: bz 169 :: B "a") [] = GOk [EInvalidName (bz 195 :: bz 169 :: B "a")].
Proof.
  split; [intros (r & H); discriminate|]. split; [exists "_"%char, (B "x9"); split; [reflexivity|]; unfold LexSpec.letter, LexSpec.digit; split; [right; right; reflexivity|]; repeat constructor; cbn; lia|].
  split; [exists []; reflexivity|]. split; [intros (r & H); discriminate|]. split; [intros (c & r & H & L & _); injection H as <- <-; unfold LexSpec.letter in L; cbn in L; lia|]. repeat split; vm_compute; reflexivity.
Qed.

(** ** C45: lookups by name *)
Theorem C45_field_exact : forall d n, (t_kind d = KObject \/ t_kind d = KInterface ->
    match field_by_name d n with Some f => first_named d n f | None => forall f, In f (t_fields d) -> fd_name f <> n end) /\
  (t_kind d <> KObject -> t_kind d <> KInterface -> field_by_name d n = None).
Proof.
  intros d n. split.
  - intros [K|K]; unfold field_by_name; rewrite K; apply field_loop_spec.
  - intros H1 H2. unfold field_by_name. destruct (t_kind d); congruence.
Qed.
Print Assumptions C45_field_exact.
Definition first_value (d : tydef) (n : bytes) (v : enumval) : Prop := exists a b, t_values d = a ++ v :: b /\ ev_name v = n /\ Forall (fun g => ev_name g <> n) a.
Lemma enum_loop_found n v b fuel : ev_name v = n -> forall a iter len, Forall (fun g => ev_name g <> n) a -> (iter + Z.of_nat (List.length (a ++ v :: b)) <= len)%Z -> List.length a < fuel ->
  enum_loop fuel (a ++ v :: b) iter len n = GOk (Some v).
Proof.
  intros Hv. induction fuel as [|fuel IH]; intros a iter len Ha Hl Hf; [lia|]. destruct a as [|x a]; cbn [app enum_loop gen_next] in *; cbn [List.length] in *.
  - replace (iter <? len)%Z with true by lia. rewrite (proj2 (beqb_true _ _) Hv). reflexivity.
  - replace (iter <? len)%Z with true by lia. inversion Ha; subst. rewrite (proj2 (beqb_false _ _)) by assumption. apply IH; [assumption|lia|lia].
Qed.
Lemma enum_loop_never n fuel : n <> [] -> forall l iter len, Forall (fun g => ev_name g <> n) l -> (0 <= len)%Z -> (iter + Z.of_nat (List.length l) <= len)%Z -> enum_loop fuel l iter len n = GLoop.
Proof.
  intros Hn. induction fuel as [|fuel IH]; intros l iter len Ha H0 Hl; [reflexivity|]. destruct l as [|x l]; cbn [enum_loop gen_next].
  - replace (-1 <? len)%Z with true by lia. cbn [zero_enumval ev_name]. destruct n; [congruence|]. cbn [beqb]. apply IH; auto.
  - cbn [List.length] in Hl. replace (iter <? len)%Z with true by lia. inversion Ha; subst. rewrite (proj2 (beqb_false _ _)) by assumption. apply IH; [assumption|lia|lia].
Qed.
(** An enum value that exists is found (the first of that name); for a name that is not there the call never returns. *)
Theorem C45_enum_value_exact : forall d n, t_kind d = KEnum ->
  (forall v, first_value d n v -> exists k, forall fuel, k <= fuel -> enum_value_by_name fuel d n = GOk (Some v)) /\
  (n <> [] -> (forall v, In v (t_values d) -> ev_name v <> n) -> forall fuel, enum_value_by_name fuel d n = GLoop).
Proof.
  intros d n K. unfold enum_value_by_name. rewrite K. split.
  - intros v (a & b & E & Hv & Ha). exists (S (List.length a)). intros fuel Hf. rewrite E. apply enum_loop_found; [exact Hv|exact Ha|lia|lia].
  - intros Hn H fuel. apply enum_loop_never; [exact Hn|apply Forall_forall; exact H|lia|lia].
Qed.
Print Assumptions C45_enum_value_exact.
Theorem C45_enum_value_missing_refuted : exists d, t_kind d = KEnum /\ forall fuel, enum_value_by_name fuel d (B "B") = GLoop.
Proof.
  exists (mkTd KEnum [] (B "E") [] [] [] [] [mkEv [] (B "A") []] []). split; [reflexivity|]. intros fuel. apply C45_enum_value_exact; [reflexivity|discriminate|].
  intros v [<-|[]]. discriminate.
Qed.
Print Assumptions C45_enum_value_missing_refuted.
Example C45_nonvacuous : let d := type_at s_good "User" in
  option_map fd_type (field_by_name d (B "peers")) = Some (TList (TNamed (B "User") true) true) /\ field_by_name d (B "zzz") = None /\
  enum_value_by_name 5 (type_at s_bad "E") (B "A") = GOk (Some (mkEv [] (B "A") [])).
Proof. repeat split; vm_compute; reflexivity. Qed.
