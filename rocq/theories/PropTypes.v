(** * PropTypes: C49, the predicates on types that package validation exports (validation/utils.go:22-210). *)
From Coq Require Import Permutation.
From Verif Require Import Base AST Walker Context Rules RuleSpec SdlProofs SchemaBuild Utils SchemaValidate LexSpec SchemaSpec ValidateProofs SchemaProofs PropBuild Samples.

(** IsInputType, IsOutputType: the kind of the innermost named type decides; they panic exactly on a list without element type. *)
Theorem C49_input_exact : forall s t, (whole t -> exists b, is_input s t = GOk b /\ (b = true <-> kind_among s input_kinds t)) /\ (is_input s t = GPanic <-> ~ whole t).
Proof.
  intros s t. split; [intros W; destruct (whole_input s t W) as (b & E); exists b; split; [exact E|apply is_input_spec, E]|].
  unfold whole. induction t as [n nn|t IH nn|]; cbn [is_input innermost]; [|exact IH|tauto]. split; [discriminate|]. intros H. destruct H. discriminate.
Qed.
Print Assumptions C49_input_exact.
Theorem C49_output_exact : forall s t, (whole t -> exists b, is_output s t = GOk b /\ (b = true <-> kind_among s output_kinds t)) /\ (is_output s t = GPanic <-> ~ whole t).
Proof.
  intros s t. split; [intros W; destruct (whole_output s t W) as (b & E); exists b; split; [exact E|apply is_output_spec, E]|].
  unfold whole. induction t as [n nn|t IH nn|]; cbn [is_output innermost]; [|exact IH|tauto]. split; [discriminate|]. intros H. destruct H. discriminate.
Qed.
Print Assumptions C49_output_exact.
(** So a type of the schema is an input type, an output type or (scalars and enums) both; nothing else is either. *)
Theorem C49_input_or_output : forall s t n, innermost t = Some n ->
  (kind_of s n = None <-> is_input s t = GOk false /\ is_output s t = GOk false) /\
  (is_input s t = GOk true /\ is_output s t = GOk true <-> kind_of s n = Some KScalar \/ kind_of s n = Some KEnum).
Proof.
  intros s t n E. assert (A : is_input s t = GOk (has_kind s [KScalar; KEnum; KInputObject] n) /\ is_output s t = GOk (has_kind s [KScalar; KObject; KInterface; KUnion; KEnum] n)).
  { revert E. induction t as [m nn|t IH nn|]; cbn [innermost is_input is_output]; intros E; [injection E as ->; auto|auto|discriminate]. }
  destruct A as [-> ->]. unfold has_kind, kind_of. destruct (mget n (sc_types s)) as [d|]; cbn [option_map]; [|split; split; intuition congruence].
  destruct (t_kind d); cbn; split; split; intuition congruence.
Qed.
Print Assumptions C49_input_or_output.
(** IsObjectType, IsInterfaceType, IsUnionType, IsAbstractType look at the named type only, whatever its nullability; a list is none of them. *)
Theorem C49_kind_predicates : forall s t, kind_of s [] = None ->
  (is_object s t = true <-> exists n nn, t = TNamed n nn /\ kind_of s n = Some KObject) /\
  (is_interface s t = true <-> exists n nn, t = TNamed n nn /\ kind_of s n = Some KInterface) /\
  (is_union s t = true <-> exists n nn, t = TNamed n nn /\ kind_of s n = Some KUnion) /\
  (is_abstract s t = true <-> exists n nn, t = TNamed n nn /\ (kind_of s n = Some KInterface \/ kind_of s n = Some KUnion)).
Proof.
  intros s t K. assert (G : forall k, has_kind s [k] (named_of t) = true <-> exists n nn, t = TNamed n nn /\ kind_of s n = Some k).
  { intros k. rewrite has_kind1. destruct t as [n nn|t nn|]; cbn [named_of]; split.
    - intros H. exists n, nn. auto.
    - intros (m & mm & E & H). injection E as -> ->. exact H.
    - congruence.
    - intros (m & mm & E & _). discriminate.
    - congruence.
    - intros (m & mm & E & _). discriminate. }
  split; [apply G|]. split; [apply G|]. split; [apply G|]. unfold is_abstract. rewrite orb_true_iff. unfold is_interface, is_union. rewrite !G. split.
  - intros [(n & nn & E & H)|(n & nn & E & H)]; exists n, nn; auto.
  - intros (n & nn & E & [H|H]); [left|right]; exists n, nn; auto.
Qed.
Print Assumptions C49_kind_predicates.
(** IsUnionMemberType: a nullable reference to an object type. *)
Theorem C49_union_member_exact : forall s t, is_union_member s t = true <-> exists n, t = TNamed n false /\ kind_of s n = Some KObject.
Proof.
  intros s t. unfold is_union_member. destruct t as [n []|t []|]; cbn [nonnull]; try (split; [discriminate|]; intros (m & E & _); discriminate).
  rewrite has_kind1. split; [intros H; exists n; auto|]. intros (m & E & H). injection E as ->. exact H.
Qed.
Print Assumptions C49_union_member_exact.

(** InterfaceImplementations: one entry for every interface of the schema; it lists, as nullable named types, the object types that
    implement the interface, each as often as its definition repeats it. *)
Definition impl_count (s : schema) (i m : bytes) : nat :=
  match mget m (sc_types s) with
  | Some d => match t_kind d with KObject => count_occ bytes_dec (map name_of (t_impl d)) i | _ => 0 end
  | None => 0
  end.
Definition ty_dec (a b : ty) : {a = b} + {a <> b}. Proof. decide equality; try apply Bool.bool_dec; apply bytes_dec. Defined.
Definition lst (k : bytes) (m : emap (list ty)) : list ty := match mget k m with Some l => l | None => [] end.
Definition contribution (s : schema) (i : bytes) (t : ty) (p : bytes * tydef) : nat :=
  match t_kind (snd p) with
  | KObject => if ty_dec t (TNamed (fst p) false) then match kind_of s i with Some KInterface => count_occ bytes_dec (map name_of (t_impl (snd p))) i | _ => 0 end else 0
  | _ => 0
  end.
Lemma lst_mset i k v m : lst i (mset k v m) = if beqb i k then v else lst i m.
Proof. unfold lst. rewrite mget_mset. destruct (beqb i k); reflexivity. Qed.
Lemma add_impls_count s n i t is : forall m, count_occ ty_dec (lst i (fold_left (add_impl s n) is m)) t =
  count_occ ty_dec (lst i m) t + (if ty_dec t (TNamed n false) then match kind_of s i with Some KInterface => count_occ bytes_dec (map name_of is) i | _ => 0 end else 0).
Proof.
  induction is as [|x is IH]; intros m; cbn [fold_left map count_occ].
  - destruct (ty_dec _ _); [|lia]. destruct (kind_of s i) as [[]|]; lia.
  - rewrite IH. unfold add_impl at 1. change (name_of x) with (named_of x). destruct (is_interface s x) eqn:Ex.
    + unfold is_interface in Ex. apply has_kind1 in Ex. rewrite lst_mset. destruct (beqb_spec i (named_of x)) as [->|Hn].
      * rewrite Ex. destruct (bytes_dec (named_of x) (named_of x)); [|congruence]. fold (lst (named_of x) m). cbn [count_occ].
        destruct (ty_dec t (TNamed n false)) as [->|Ht].
        -- destruct (ty_dec (TNamed n false) (TNamed n false)); [|congruence]. lia.
        -- destruct (ty_dec (TNamed n false) t); [congruence|]. lia.
      * destruct (bytes_dec (named_of x) i); [congruence|]. reflexivity.
    + destruct (ty_dec t (TNamed n false)); [|reflexivity]. destruct (bytes_dec (named_of x) i) as [E|E]; [|reflexivity].
      destruct (kind_of s i) as [k|] eqn:K; [|reflexivity]. destruct k; try reflexivity. exfalso. unfold is_interface in Ex. rewrite E in Ex. apply (has_kind1 s KInterface) in K. congruence.
Qed.
Definition istep (s : schema) (m : emap (list ty)) (p : bytes * tydef) : emap (list ty) :=
  match t_kind (snd p) with
  | KObject => fold_left (add_impl s (fst p)) (t_impl (snd p)) m
  | KInterface => if mem (fst p) m then m else mset (fst p) [] m
  | _ => m
  end.
Lemma istep_fold s oi : implementations oi s = fold_left (istep s) oi []. Proof. reflexivity. Qed.
Lemma istep_count s i t oi : forall m, count_occ ty_dec (lst i (fold_left (istep s) oi m)) t = count_occ ty_dec (lst i m) t + list_sum (map (contribution s i t) oi).
Proof.
  induction oi as [|[n d] oi IH]; intros m; cbn [fold_left map list_sum fold_right]; [lia|]. rewrite IH. change (fold_right Nat.add 0 (map (contribution s i t) oi)) with (list_sum (map (contribution s i t) oi)). generalize (list_sum (map (contribution s i t) oi)) as z. intros z. unfold istep, contribution. cbn [fst snd].
  destruct (t_kind d); try lia.
  - rewrite add_impls_count. lia.
  - unfold mem. destruct (mget n m) eqn:E; [lia|]. rewrite lst_mset. destruct (beqb_spec i n) as [->|]; [|lia]. unfold lst. rewrite E. cbn. lia.
Qed.
Lemma sum_zero {X} (f : X -> nat) l : (forall x, In x l -> f x = 0) -> list_sum (map f l) = 0.
Proof. induction l as [|x l IH]; intros H; [reflexivity|]. cbn. rewrite (H x (or_introl eq_refl)). apply IH. intros y Hy. apply H. right. exact Hy. Qed.
Lemma contributions s oi i t : visits_map oi (sc_types s) -> kind_of s i = Some KInterface -> list_sum (map (contribution s i t) oi) = match t with TNamed m false => impl_count s i m | _ => 0 end.
Proof.
  intros [Nd O] K.
  assert (Z : forall m, t = TNamed m false -> list_sum (map (contribution s i t) oi) = impl_count s i m).
  { intros m ->. unfold impl_count. destruct (mget m (sc_types s)) as [d|] eqn:E.
    - apply O in E. apply in_split in E. destruct E as (a & b & ->). rewrite map_app, list_sum_app. cbn [map list_sum fold_right]. change (fold_right Nat.add 0 ?l) with (list_sum l).
      rewrite map_app in Nd. cbn [map fst] in Nd. apply NoDup_remove_2 in Nd.
      rewrite (sum_zero _ a), (sum_zero _ b).
      + unfold contribution. cbn [fst snd]. destruct (ty_dec (TNamed m false) (TNamed m false)); [|congruence]. rewrite K. destruct (t_kind d); lia.
      + intros [k x] Hk. unfold contribution. cbn [fst snd]. destruct (t_kind x); try reflexivity. destruct (ty_dec (TNamed m false) (TNamed k false)) as [Ek|]; [|reflexivity].
        injection Ek as <-. destruct Nd. apply in_or_app. right. apply (in_map fst) in Hk. exact Hk.
      + intros [k x] Hk. unfold contribution. cbn [fst snd]. destruct (t_kind x); try reflexivity. destruct (ty_dec (TNamed m false) (TNamed k false)) as [Ek|]; [|reflexivity].
        injection Ek as <-. destruct Nd. apply in_or_app. left. apply (in_map fst) in Hk. exact Hk.
    - apply sum_zero. intros [k x] Hk. unfold contribution. cbn [fst snd]. destruct (t_kind x); try reflexivity. destruct (ty_dec (TNamed m false) (TNamed k false)) as [Ek|]; [|reflexivity].
      injection Ek as <-. apply O in Hk. congruence. }
  assert (Z0 : (forall m, t <> TNamed m false) -> list_sum (map (contribution s i t) oi) = 0).
  { intros H. apply sum_zero. intros [k x] _. unfold contribution. cbn [fst snd]. destruct (t_kind x); try reflexivity. destruct (ty_dec t (TNamed k false)) as [Ek|]; [|reflexivity]. destruct (H k Ek). }
  destruct t as [m []|u nn|]; [apply Z0; discriminate|apply Z; reflexivity|apply Z0; discriminate|apply Z0; discriminate].
Qed.
Lemma istep_keys s i oi : forall m, mget i (fold_left (istep s) oi m) <> None <->
  mget i m <> None \/ (exists d, In (i, d) oi /\ t_kind d = KInterface) \/ (kind_of s i = Some KInterface /\ exists n d, In (n, d) oi /\ t_kind d = KObject /\ In i (map name_of (t_impl d))).
Proof.
  assert (A : forall n is m, mget i (fold_left (add_impl s n) is m) <> None <-> mget i m <> None \/ (kind_of s i = Some KInterface /\ In i (map name_of is))).
  { intros n. induction is as [|x is IH]; intros m; cbn [fold_left map In]; [tauto|]. rewrite IH. unfold add_impl at 1. change (name_of x) with (named_of x). destruct (is_interface s x) eqn:Ex; unfold is_interface in Ex.
    - apply has_kind1 in Ex. rewrite mget_mset. destruct (beqb_spec i (named_of x)) as [->|Hn].
      + split; [intros _; right; auto|]. intros _. left. discriminate.
      + split; [tauto|]. intros [H|[H [E|E]]]; [tauto|congruence|tauto].
    - split; [tauto|]. intros [H|[H [E|E]]]; [tauto| |tauto]. rewrite E in Ex. apply (has_kind1 s KInterface) in H. congruence. }
  induction oi as [|[n d] oi IH]; intros m; cbn [fold_left].
  - split; [tauto|]. intros [H|[(d & [] & _)|(_ & ? & ? & [] & _)]]. exact H.
  - rewrite IH. assert (E : mget i (istep s m (n, d)) <> None <-> mget i m <> None \/ (i = n /\ t_kind d = KInterface) \/ (kind_of s i = Some KInterface /\ t_kind d = KObject /\ In i (map name_of (t_impl d)))).
    { unfold istep. cbn [fst snd]. destruct (t_kind d) eqn:Kd; try (split; [tauto|]; intros [H|[[_ H]|(_ & H & _)]]; [exact H|discriminate|discriminate]).
      - rewrite A. split; [tauto|]. intros [H|[[_ H]|H]]; [tauto|discriminate|tauto].
      - unfold mem. destruct (mget n m) eqn:En.
        + split; [tauto|]. intros [H|[[-> _]|(_ & H & _)]]; [exact H|congruence|discriminate].
        + rewrite mget_mset. destruct (beqb_spec i n) as [->|Hn]; [split; [tauto|discriminate]|]. split; [tauto|]. intros [H|[[H _]|(_ & H & _)]]; [exact H|congruence|discriminate]. }
    rewrite E. split.
    + intros [[H|[[-> H]|(H1 & H2)]]|[(d' & Hi & H)|(H & n' & d' & Hi & H')]].
      * tauto.
      * right. left. exists d. split; [left; reflexivity|exact H].
      * right. right. split; [exact H1|]. exists n, d. split; [left; reflexivity|exact H2].
      * right. left. exists d'. split; [right; exact Hi|exact H].
      * right. right. split; [exact H|]. exists n', d'. split; [right; exact Hi|exact H'].
    + intros [H|[(d' & [Hi|Hi] & H)|(H & n' & d' & [Hi|Hi] & H')]].
      * tauto.
      * injection Hi as -> ->. tauto.
      * right. left. exists d'. auto.
      * injection Hi as -> ->. left. right. right. auto.
      * right. right. split; [exact H|]. exists n', d'. auto.
Qed.
Theorem C49_implementations : forall oi s, visits_map oi (sc_types s) -> forall i,
  (mget i (implementations oi s) <> None <-> kind_of s i = Some KInterface) /\
  forall l, mget i (implementations oi s) = Some l -> forall t, count_occ ty_dec l t = match t with TNamed m false => impl_count s i m | _ => 0 end.
Proof.
  intros oi s V i. assert (A : mget i (implementations oi s) <> None <-> kind_of s i = Some KInterface).
  { rewrite istep_fold, istep_keys. destruct V as [_ O]. split.
    - intros [H|[(d & Hi & K)|(K & _)]]; [destruct H; reflexivity| |exact K]. apply O in Hi. unfold kind_of. rewrite Hi. cbn. rewrite K. reflexivity.
    - intros K. unfold kind_of in K. destruct (mget i (sc_types s)) as [d|] eqn:E; [|discriminate]. injection K as K. right. left. exists d. split; [apply O, E|exact K]. }
  split; [exact A|]. intros l E t. assert (K : kind_of s i = Some KInterface) by (apply A; congruence).
  rewrite <- (contributions s oi i t V K). pose proof (istep_count s i t oi []) as C. rewrite <- istep_fold in C. unfold lst in C. rewrite E in C. cbn in C. exact C.
Qed.
Print Assumptions C49_implementations.
(** The order in which the map is visited changes the order of the list only. *)
Theorem C49_implementations_order : forall oi oi' s i l l', visits_map oi (sc_types s) -> visits_map oi' (sc_types s) ->
  mget i (implementations oi s) = Some l -> mget i (implementations oi' s) = Some l' -> Permutation l l'.
Proof.
  intros oi oi' s i l l' V V' E E'. apply (Permutation_count_occ ty_dec). intros t. rewrite (proj2 (C49_implementations oi s V i) l E), (proj2 (C49_implementations oi' s V' i) l' E'). reflexivity.
Qed.
Print Assumptions C49_implementations_order.
(** PossibleTypes: the members of a union, the implementations of an interface, nothing for any other type. *)
Theorem C49_possible_types : forall oi s n nn, visits_map oi (sc_types s) ->
  (forall u, mget n (sc_types s) = Some u -> t_kind u = KUnion -> possible_types oi s (TNamed n nn) = t_members u) /\
  (kind_of s n = Some KInterface -> forall t, count_occ ty_dec (possible_types oi s (TNamed n nn)) t = match t with TNamed m false => impl_count s n m | _ => 0 end) /\
  (kind_of s n <> Some KUnion -> kind_of s n <> Some KInterface -> possible_types oi s (TNamed n nn) = []).
Proof.
  intros oi s n nn V. destruct (C49_implementations oi s V n) as [A B']. unfold possible_types, is_union. cbn [named_of]. pose proof (has_kind1 s KUnion n) as U. unfold kind_of in *.
  destruct (has_kind s [KUnion] n) eqn:Eu; (split; [|split]).
  - intros u -> _. reflexivity.
  - intros K. destruct U as [U _]. rewrite (U eq_refl) in K. discriminate.
  - intros H. destruct H. apply U. reflexivity.
  - intros u Hu K. rewrite Hu in U. cbn in U. rewrite K in U. destruct U as [_ U]. discriminate (U eq_refl).
  - intros K t. apply A in K. destruct (mget n (implementations oi s)) as [l|]; [|congruence]. apply B'. reflexivity.
  - intros _ K. destruct (mget n (implementations oi s)) as [l|]; [|reflexivity]. destruct K. apply A. discriminate.
Qed.
Print Assumptions C49_possible_types.
(** IsPossibleType answers true when the type is among the possible types, and otherwise does not return: it never answers false.
    (The empty type reference is found in every list.) *)
Theorem C49_is_possible : forall peq oi s a n nn,
  let listed := In (TNamed n nn) (possible_types oi s a) \/ TNamed n nn = TNamed [] false in
  (listed -> exists k, forall fuel, k <= fuel -> is_possible peq fuel oi s a (TNamed n nn) = GOk true) /\
  (~ listed -> forall fuel, is_possible peq fuel oi s a (TNamed n nn) = GLoop).
Proof.
  intros peq oi s a n nn listed. unfold listed, is_possible. clear listed. set (ts := possible_types oi s a).
  assert (Q : forall x, go_eq peq x (TNamed n nn) = true <-> x = TNamed n nn).
  { intros [m mm|u mm|]; cbn [go_eq]; try (split; discriminate). rewrite andb_true_iff. destruct (beqb_spec m n) as [->|Hn]; [|split; [intros [H _]; discriminate|intros H; injection H; congruence]].
    destruct mm, nn; cbn; split; intuition congruence. }
  split.
  - intros L. exists (S (List.length ts)). assert (G : forall rest iter fuel, In (TNamed n nn) rest \/ TNamed n nn = TNamed [] false -> (iter + Z.of_nat (List.length rest) <= Z.of_nat (List.length ts))%Z ->
      S (List.length rest) <= fuel -> possible_loop peq fuel rest iter (Z.of_nat (List.length ts)) (TNamed n nn) = GOk true).
    { induction rest as [|x rest IH]; intros iter fuel Hin Hl Hf; (destruct fuel as [|fuel]; [cbn in Hf; lia|]); cbn [possible_loop gen_next].
      - destruct Hin as [[]|E]. replace (-1 <? Z.of_nat (List.length ts))%Z with true by (symmetry; apply Z.ltb_lt; lia). rewrite (proj2 (Q zero_type)); [reflexivity|symmetry; exact E].
      - cbn [List.length] in *. replace (iter <? Z.of_nat (List.length ts))%Z with true by (symmetry; apply Z.ltb_lt; lia). destruct (go_eq peq x (TNamed n nn)) eqn:E; [reflexivity|].
        apply IH; [|lia|lia]. destruct Hin as [[->|Hin]|Hin]; [|auto|auto]. rewrite (proj2 (Q _) eq_refl) in E. discriminate. }
    intros fuel Hf. apply G; [exact L|lia|lia].
  - intros L fuel. assert (G : forall fuel rest iter, ~ (In (TNamed n nn) rest \/ TNamed n nn = TNamed [] false) -> (iter + Z.of_nat (List.length rest) <= Z.of_nat (List.length ts))%Z ->
      possible_loop peq fuel rest iter (Z.of_nat (List.length ts)) (TNamed n nn) = GLoop).
    { clear fuel. induction fuel as [|f IH]; intros rest iter Hn Hl; [reflexivity|]. destruct rest as [|x rest]; cbn [possible_loop gen_next].
      - replace (-1 <? Z.of_nat (List.length ts))%Z with true by (symmetry; apply Z.ltb_lt; lia). destruct (go_eq peq zero_type (TNamed n nn)) eqn:E; [apply Q in E; unfold zero_type in E; destruct Hn; right; symmetry; exact E|]. apply IH; [exact Hn|exact Hl].
      - cbn [List.length] in *. replace (iter <? Z.of_nat (List.length ts))%Z with true by (symmetry; apply Z.ltb_lt; lia). destruct (go_eq peq x (TNamed n nn)) eqn:E; [apply Q in E; subst; destruct Hn; left; left; reflexivity|].
        apply IH; [|lia]. intros [H|H]; apply Hn; [left; right; exact H|right; exact H]. }
    apply G; [exact L|lia].
Qed.
Print Assumptions C49_is_possible.
Definition s49 : schema := c_schema (build_schema [] (validate_sdl (src "interface I {f:ID} type A implements I & J & I {f:ID} type C implements J {f:ID} interface J {f:ID} union U = A | C enum E {X} input P {a:ID}") None)).
Example C49_nonvacuous : visits_map (sc_types s49) (sc_types s49) /\ kind_of s49 [] = None /\
  possible_types (sc_types s49) s49 (TNamed (B "I") false) = [TNamed (B "A") false; TNamed (B "A") false] /\
  possible_types (sc_types s49) s49 (TNamed (B "J") true) = [TNamed (B "C") false; TNamed (B "A") false] /\
  possible_types (sc_types s49) s49 (TNamed (B "U") false) = [TNamed (B "A") false; TNamed (B "C") false] /\
  is_input s49 (TList (TNamed (B "P") true) true) = GOk true /\ is_output s49 (TNamed (B "P") true) = GOk false /\ is_output s49 (TList (TNamed (B "U") true) false) = GOk true /\
  is_union_member s49 (TNamed (B "A") false) = true /\ is_union_member s49 (TNamed (B "A") true) = false /\ is_union_member s49 (TList (TNamed (B "A") false) false) = false /\
  (forall fuel, is_possible (fun _ _ => false) fuel (sc_types s49) s49 (TNamed (B "I") false) (TNamed (B "C") false) = GLoop).
Proof.
  split; [|split; [vm_compute; reflexivity|]].
  - split; [vm_compute; repeat (apply NoDup_cons; [intros H; repeat (destruct H as [H|H]; [discriminate|]); destruct H|]); apply NoDup_nil|]. intros k v. split.
    + intros H. remember (sc_types s49) as m eqn:Em. vm_compute in Em. subst m. repeat (destruct H as [H|H]; [injection H as <- <-; vm_compute; reflexivity|]). destruct H.
    + remember (sc_types s49) as m eqn:Em. vm_compute in Em. subst m. cbn [mget]. repeat (match goal with |- context [beqb k ?x] => destruct (beqb_spec k x) as [->|_] end; [intros H; injection H as <-; cbn; tauto|]). discriminate.
  - repeat (split; [vm_compute; reflexivity|]). intros fuel. apply C49_is_possible. vm_compute. intros [H|H]; [|discriminate]. repeat (destruct H as [H|H]; [discriminate|]). destruct H.
Qed.
