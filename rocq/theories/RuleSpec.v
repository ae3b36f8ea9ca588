(** * RuleSpec: vocabulary in which the rules are specified, independent of the rules; and lemmas about it. *)
From Verif Require Import Base AST Walker WalkSpec Context Rules CtxProofs RuleProofs.

(** ** Lists *)
(** The elements that occur again: those at a position [i] that also occur at a smaller position. *)
Definition later (l : list bytes) : list bytes :=
  map snd (filter (fun p => if in_dec bytes_dec (snd p) (firstn (fst p) l) then true else false) (combine (seq 0 (List.length l)) l)).
(** ** What occurs in a document *)
Definition type_refs (doc : document) : list bytes :=
  flat_map (fun n => match n with NNamedType (TNamed t _) => [t] | _ => [] end) (nodes doc).
Definition applications (doc : document) : list directive :=
  flat_map (fun n => match n with NDirective d => [d] | _ => [] end) (nodes doc).
(** the names of the directives applied at each place with directives *)
Definition directive_sites (doc : document) : list (list bytes) :=
  flat_map (fun n => match n with NDirectives l => [map d_name l] | _ => [] end) (nodes doc).
(** the argument names of each field, directive, field definition, directive definition *)
Definition argument_sites (doc : document) : list (list bytes) :=
  flat_map (fun n => match n with
    | NFieldSelection (SField _ _ args _ _) => [map arg_name args]
    | NDirective d => [map arg_name (d_args d)]
    | NFieldDefinition f => [map i_name (fd_args f)]
    | NDirectiveDefinition d => [map i_name (dd_args d)]
    | _ => [] end) (nodes doc).
(** the field names of each object literal *)
Definition object_sites (doc : document) : list (list bytes) :=
  flat_map (fun n => match n with NObjectValue (VObject fs) => [map fst fs] | _ => [] end) (nodes doc).
(** the names checked by PossibleNames: types, fields, directives, arguments and input fields *)
Definition defined_names (doc : document) : list bytes :=
  flat_map (fun n => match n with
    | NTypeDefinition t => [t_name t] | NFieldDefinition f => [fd_name f] | NDirectiveDefinition d => [dd_name d]
    | NInputValueDefinition i => [i_name i] | _ => [] end) (nodes doc).
Definition operations (doc : document) : list opdef := flat_map (fun d => match def_body d with DOp o => [o] | _ => [] end) (doc_defs doc).
Definition type_definitions (doc : document) : list tydef := flat_map (fun d => match def_body d with DType t => [t] | _ => [] end) (doc_defs doc).
Definition type_extensions (doc : document) : list tydef := flat_map (fun d => match def_body d with XType t => [t] | _ => [] end) (doc_defs doc).
Definition directive_definitions (doc : document) : list dirdef := flat_map (fun d => match def_body d with DDir t => [t] | _ => [] end) (doc_defs doc).
Definition schema_definitions (doc : document) : list schemadef := flat_map (fun d => match def_body d with DSchema t => [t] | _ => [] end) (doc_defs doc).

(** ** Kinds of errors *)
Definition is_nonexec (e : err) : bool := match e with ENonExecutable _ => true | _ => false end.
Definition is_anon (e : err) : bool := match e with EAnonNotAlone => true | _ => false end.
Definition is_unknown_type (e : err) : bool := match e with EUnknownType _ => true | _ => false end.
Definition is_unused (e : err) : bool := match e with EUnusedVariable _ _ => true | _ => false end.
Definition is_directive_err (e : err) : bool := match e with EUnknownDirective _ | EMisplaced _ _ => true | _ => false end.
Definition is_dup_directive (e : err) : bool := match e with EDupDirective _ => true | _ => false end.
Definition is_dup_arg (e : err) : bool := match e with EDupArg _ => true | _ => false end.
Definition is_dup_input (e : err) : bool := match e with EDupInputField _ => true | _ => false end.
Definition is_unknown_arg (e : err) : bool := match e with EUnknownDirArg _ _ => true | _ => false end.
Definition is_underscores (e : err) : bool := match e with ETwoUnderscores _ => true | _ => false end.
Definition is_ext_err (e : err) : bool := match e with EExtendKind _ _ | EExtendUnknown _ => true | _ => false end.
Definition is_missing_arg (e : err) : bool := match e with EMissingArg _ _ _ => true | _ => false end.
Definition is_optype_err (e : err) : bool := match e with EDupOperationType _ | EExistedOperationType _ => true | _ => false end.
Definition is_existed_type (e : err) : bool := match e with EExistedType _ => true | _ => false end.
Definition is_dup_type (e : err) : bool := match e with EDupTypeName _ => true | _ => false end.
Definition is_existed_dir (e : err) : bool := match e with EExistedDirective _ => true | _ => false end.
Definition is_dup_dir (e : err) : bool := match e with EDupDirectiveName _ => true | _ => false end.
Definition is_schema_err (e : err) : bool := match e with ESchemaInExtension | ESchemaNotAlone => true | _ => false end.
(** the errors of one kind, in the order in which they were reported ([AddError] prepends) *)
Definition reported (k : err -> bool) (c : ctx) : list err := rev (filter k (c_errors c)).

(** ** Lemmas *)
Lemma combine_map_seq {X} (l : list X) s : combine (seq (S s) (List.length l)) l = map (fun p => (S (fst p), snd p)) (combine (seq s (List.length l)) l).
Proof. revert s. induction l as [|x l IH]; intros s; [reflexivity|]. cbn. rewrite IH. reflexivity. Qed.
Lemma later_repeats l : later l = repeats l.
Proof.
  unfold later, repeats.
  assert (G : forall l pre seen, (forall x, In x pre <-> In x seen) ->
    map snd (filter (fun p : nat * bytes => if in_dec bytes_dec (snd p) (firstn (fst p) (pre ++ l)) then true else false) (combine (seq (List.length pre) (List.length l)) l)) = repeats_from seen l).
  { clear. induction l as [|x l IH]; intros pre seen H; [reflexivity|]. cbn [List.length seq combine filter repeats_from fst snd].
    rewrite firstn_app, firstn_all, Nat.sub_diag. cbn [firstn]. rewrite app_nil_r.
    assert (R : combine (seq (S (List.length pre)) (List.length l)) l = combine (seq (List.length (pre ++ [x])) (List.length l)) l) by (rewrite app_length; cbn [List.length]; rewrite Nat.add_1_r; reflexivity).
    assert (P : pre ++ x :: l = (pre ++ [x]) ++ l) by (rewrite <- app_assoc; reflexivity). rewrite R, P.
    destruct (in_dec bytes_dec x pre) as [Hi|Hi]; destruct (inb x seen) eqn:E.
    - cbn [map snd]. f_equal. apply IH. intros y. rewrite in_app_iff, H. apply inb_In in E. cbn. intuition congruence.
    - apply inb_notIn in E. destruct E. apply H, Hi.
    - apply inb_In in E. destruct Hi. apply H, E.
    - apply IH. intros y. rewrite in_app_iff, H. cbn. intuition congruence. }
  apply (G l [] []). tauto.
Qed.
(** A name that occurs [k] times is reported [k-1] times. *)
Lemma count_repeats l x : count_occ bytes_dec (repeats l) x = Nat.pred (count_occ bytes_dec l x).
Proof.
  unfold repeats.
  assert (G : forall l seen, count_occ bytes_dec (repeats_from seen l) x = if inb x seen then count_occ bytes_dec l x else Nat.pred (count_occ bytes_dec l x)).
  { clear. induction l as [|y l IH]; intros seen; cbn [repeats_from count_occ]; [destruct (inb x seen); reflexivity|].
    destruct (inb y seen) eqn:E; cbn [count_occ].
    - rewrite IH. destruct (bytes_dec y x) as [->|Hn]; [rewrite E|]; reflexivity.
    - rewrite IH. destruct (bytes_dec y x) as [->|Hn].
      + rewrite E. cbn. rewrite beqb_refl. reflexivity.
      + cbn. replace (beqb x y) with false by (symmetry; apply beqb_false; congruence). reflexivity. }
  apply (G l []).
Qed.
Theorem count_later l x : count_occ bytes_dec (later l) x = Nat.pred (count_occ bytes_dec l x).
Proof. rewrite later_repeats. apply count_repeats. Qed.
Lemma later_nil l : later l = [] <-> NoDup l.
Proof.
  rewrite (NoDup_count_occ bytes_dec). split.
  - intros H x. pose proof (count_later l x) as C. rewrite H in C. cbn in C. lia.
  - intros H. destruct (later l) as [|x r] eqn:E; [reflexivity|]. pose proof (count_later l x) as C. rewrite E in C. cbn in C.
    destruct (bytes_dec x x); [|congruence]. specialize (H x). lia.
Qed.
Lemma repeats_snoc l x : repeats (l ++ [x]) = repeats l ++ (if inb x l then [x] else []).
Proof.
  unfold repeats.
  assert (G : forall l seen, repeats_from seen (l ++ [x]) = repeats_from seen l ++ (if inb x (rev l ++ seen) then [x] else [])).
  { clear. induction l as [|y l IH]; intros seen; cbn [app repeats_from rev].
    - destruct (inb x seen); reflexivity.
    - destruct (inb y seen) eqn:E; rewrite IH; cbn [app]; f_equal.
      + f_equal. destruct (inb x (rev l ++ seen)) eqn:E1, (inb x ((rev l ++ [y]) ++ seen)) eqn:E2; try reflexivity; exfalso.
        * apply inb_In in E1. apply inb_notIn in E2. apply E2. rewrite !in_app_iff in *. tauto.
        * apply inb_In in E2. apply inb_notIn in E1. apply E1. rewrite !in_app_iff in *. cbn in E2. apply inb_In in E. intuition congruence.
      + rewrite <- app_assoc. reflexivity. }
  rewrite G, app_nil_r. f_equal. destruct (inb x (rev l)) eqn:E1, (inb x l) eqn:E2; try reflexivity; exfalso.
  - apply inb_In in E1. apply inb_notIn in E2. apply in_rev in E1. contradiction.
  - apply inb_In in E2. apply inb_notIn in E1. apply E1. apply -> in_rev. exact E2.
Qed.

Lemma filter_rev' {X} (f : X -> bool) l : filter f (rev l) = rev (filter f l).
Proof. induction l as [|x l IH]; [reflexivity|]. cbn. rewrite filter_app, IH. cbn. destruct (f x); [reflexivity|]. apply app_nil_r. Qed.
Lemma filter_flat {X Y} (k : Y -> bool) (f : X -> list Y) l : filter k (flat_map f l) = flat_map (fun x => filter k (f x)) l.
Proof. induction l as [|x l IH]; [reflexivity|]. cbn. rewrite filter_app, IH. reflexivity. Qed.
Lemma flat_ext {X Y} (f g : X -> list Y) l : (forall x, f x = g x) -> flat_map f l = flat_map g l.
Proof. intros H. induction l as [|x l IH]; [reflexivity|]. cbn. rewrite H, IH. reflexivity. Qed.
Lemma flat_ext_in {X Y} (f g : X -> list Y) l : (forall x, In x l -> f x = g x) -> flat_map f l = flat_map g l.
Proof. intros H. induction l as [|x l IH]; [reflexivity|]. cbn. rewrite H, IH; [reflexivity|intros; apply H; right; assumption|left; reflexivity]. Qed.
Lemma flat_flat {X Y Z} (f : X -> list Y) (g : Y -> list Z) l : flat_map g (flat_map f l) = flat_map (fun x => flat_map g (f x)) l.
Proof. induction l as [|x l IH]; [reflexivity|]. cbn. rewrite flat_map_app, IH. reflexivity. Qed.
Lemma map_flat {X Y Z} (f : X -> list Y) (g : Y -> Z) l : map g (flat_map f l) = flat_map (fun x => map g (f x)) l.
Proof. induction l as [|x l IH]; [reflexivity|]. cbn. rewrite map_app, IH. reflexivity. Qed.
Lemma flat_nil {X Y} (l : list X) : flat_map (fun _ => @nil Y) l = [].
Proof. induction l; auto. Qed.
Lemma flat_enter {Y} (S : node -> list Y) es : flat_map (fun e : phase * node => match fst e with Enter => S (snd e) | Leave => [] end) es = flat_map S (at_phase Enter es).
Proof. induction es as [|[[] n] es IH]; cbn [flat_map fst snd]; [reflexivity| |]; change (at_phase Enter ((?p, n) :: es)) with (at_phase Enter ([(p, n)] ++ es)); rewrite at_phase_app, IH; reflexivity. Qed.

(** ** The events of definitions *)
Definition inner (n : node) : bool :=
  match n with
  | NDocument _ | NDefinitions _ | NDefinition _ _ | NExecutable _ _ | NTypeSystem _ | NTypeSystemExt _ | NOperation _ | NFragment _
  | NSchemaDefinition _ | NSchemaExtension _ | NTypeDefinition _ | NTypeExtension _ | NDirectiveDefinition _ => false
  | _ => true
  end.
Lemma inner_kids n m : inner n = true -> In m (kids n) -> inner m = true.
Proof.
  intros L H. destruct n; try discriminate L; cbn [kids] in H;
    repeat match type of H with context [match ?x with _ => _ end] => destruct x end; kd; try reflexivity.
Qed.
Lemma below_inner n m : below n m -> inner n = true -> inner m = true.
Proof. induction 1 as [|p n m H _ IH]; intros L; [exact L|]. apply IH. eapply inner_kids; eassumption. Qed.
Lemma events_pre t ph n : In (ph, n) (events t) -> In n (preorder t).
Proof.
  induction t as [m cs IH] using tree_nest. cbn [events preorder]. intros [E|H]; [injection E as _ <-; left; reflexivity|].
  apply in_app_iff in H. destruct H as [H|[E|[]]]; [|injection E as _ <-; left; reflexivity]. right. apply in_flat_map in H. destruct H as (c & Hc & H).
  apply in_flat_map. exists c. split; [exact Hc|]. rewrite Forall_forall in IH. exact (IH c Hc H).
Qed.
Definition rel (e : phase * node) : bool := negb (inner (snd e)).
Lemma filter_none {X} (f : X -> bool) l : (forall x, In x l -> f x = false) -> filter f l = [].
Proof. induction l as [|x l IH]; intros H; [reflexivity|]. cbn. rewrite (H x (or_introl eq_refl)). apply IH. intros y Hy. apply H. right. exact Hy. Qed.
Lemma rel_inner ts : Forall (fun t => ast_tree t /\ inner (root t) = true) ts -> filter rel (flat_map events ts) = [].
Proof.
  intros F. apply filter_none. intros [ph n] H. apply in_flat_map in H. destruct H as (t & Ht & H). rewrite Forall_forall in F. destruct (F t Ht) as [Ha Hi].
  unfold rel. cbn [snd]. apply events_pre in H. apply preorder_below in H; [|exact Ha]. rewrite (below_inner _ _ H Hi). reflexivity.
Qed.
Lemma rel_node n cs : ast_tree (Node n cs) -> inner n = false -> Forall (fun m => inner m = true) (kids n) -> filter rel (events (Node n cs)) = [(Enter, n); (Leave, n)].
Proof.
  intros Ha Hn Hk. inversion Ha as [? ? K F]; subst. cbn [events]. cbn [filter]. unfold rel at 1. cbn [snd]. rewrite Hn. cbn [negb]. rewrite filter_app, rel_inner.
  - cbn. unfold rel. cbn [snd]. rewrite Hn. reflexivity.
  - apply Forall_forall. intros t Ht. rewrite Forall_forall in F, Hk. split; [apply F, Ht|]. apply Hk. rewrite <- K. apply in_map, Ht.
Qed.
Lemma inner_of n : (forall m, In m (kids n) -> inner m = true) -> Forall (fun m => inner m = true) (kids n).
Proof. intros H. apply Forall_forall. exact H. Qed.
(** The nodes from the definition down to its specific definition. *)
Definition heads (i : nat) (d : definition) : list node :=
  [NDefinition i d] ++
  match def_body d with
  | DOp o => [NExecutable i (DOp o); NOperation o] | DFrag f => [NExecutable i (DFrag f); NFragment f]
  | DSchema s => [NTypeSystem (DSchema s); NSchemaDefinition s] | DType t => [NTypeSystem (DType t); NTypeDefinition t]
  | DDir x => [NTypeSystem (DDir x); NDirectiveDefinition x] | XSchema s => [NTypeSystemExt (XSchema s); NSchemaExtension s]
  | XType t => [NTypeSystemExt (XType t); NTypeExtension t]
  end.
Definition head_events (i : nat) (d : definition) : list (phase * node) :=
  map (pair Enter) (heads i d) ++ map (pair Leave) (rev (heads i d)).
Lemma rel_def i d : filter rel (events (tDefinition (i, d))) = head_events i d.
Proof.
  unfold tDefinition, head_events, heads. cbn [fst snd events filter]. unfold rel at 1. cbn [snd inner negb]. rewrite filter_app. cbn [filter]. unfold rel at 2. cbn [snd inner negb].
  cbn [flat_map]. rewrite app_nil_r.
  assert (G : forall b m t, ast_tree t -> root t = m -> inner m = false -> Forall (fun m => inner m = true) (kids m) -> inner b = false ->
     filter rel (events (Node b [t])) = [(Enter, b); (Enter, m); (Leave, m); (Leave, b)]).
  { intros b m [m' cs] Ha Er Hm Hk Hb. cbn in Er. subst m'. cbn [events filter flat_map]. unfold rel at 1. cbn [snd]. rewrite Hb. cbn [negb]. rewrite filter_app, app_nil_r.
    change ((Enter, m) :: flat_map events cs ++ [(Leave, m)]) with (events (Node m cs)). rewrite (rel_node m cs Ha Hm Hk). cbn. unfold rel. cbn [snd]. rewrite Hb. reflexivity. }
  destruct (def_body d) as [o|f|s|t|x|s|t]; cbn [tBody app rev map].
  - rewrite (G _ (NOperation o)); [reflexivity|apply ok_operation|reflexivity|reflexivity| |reflexivity]. apply inner_of. cbn [kids]. intros m H. kd; reflexivity.
  - rewrite (G _ (NFragment f)); [reflexivity|apply ok_fragment|reflexivity|reflexivity| |reflexivity]. apply inner_of. cbn [kids]. intros m H. kd; reflexivity.
  - rewrite (G _ (NSchemaDefinition s)); [reflexivity|apply ok_schemadef|reflexivity|reflexivity| |reflexivity]. apply inner_of. cbn [kids]. intros m H. kd; reflexivity.
  - rewrite (G _ (NTypeDefinition t)); [reflexivity|apply ok_typedef|reflexivity|reflexivity| |reflexivity]. apply inner_of. cbn [kids]. intros m H. kd; reflexivity.
  - rewrite (G _ (NDirectiveDefinition x)); [reflexivity|apply ok_dirdef|reflexivity|reflexivity| |reflexivity]. apply inner_of. cbn [kids]. intros m H. kd; reflexivity.
  - rewrite (G _ (NSchemaExtension s)); [reflexivity|apply ok_schemaext|reflexivity|reflexivity| |reflexivity]. apply inner_of. cbn [kids]. intros m H. kd; reflexivity.
  - rewrite (G _ (NTypeExtension t)); [reflexivity|apply ok_typeext|reflexivity|reflexivity| |reflexivity]. apply inner_of. cbn [kids]. intros m H. kd; reflexivity.
Qed.
Lemma flat_rel {Y} (f : phase * node -> list Y) es : (forall ph n, inner n = true -> f (ph, n) = []) -> flat_map f es = flat_map f (filter rel es).
Proof.
  intros H. induction es as [|[ph n] es IH]; [reflexivity|]. cbn [flat_map filter]. unfold rel at 1. cbn [snd]. destruct (inner n) eqn:E; cbn [negb].
  - rewrite (H ph n E), IH. reflexivity.
  - cbn [flat_map]. rewrite IH. reflexivity.
Qed.
(** A function that is [[]] except on the heads of definitions. *)
Lemma flat_defs {Y} (f : phase * node -> list Y) doc : (forall ph n, inner n = true -> f (ph, n) = []) ->
  (forall ph, f (ph, NDocument doc) = []) -> (forall ph, f (ph, NDefinitions (doc_defs doc)) = []) ->
  flat_map f (events (tDocument doc)) = flat_map (fun p => flat_map f (head_events (fst p) (snd p))) (numbered (doc_defs doc)).
Proof.
  intros H1 H2 H3. unfold tDocument. cbn [events flat_map]. rewrite flat_map_app. cbn [flat_map]. rewrite !H2, !app_nil_r. cbn [app].
  destruct (doc_defs doc) as [|d0 ds] eqn:E; [reflexivity|]. cbn [tNonnil flat_map]. rewrite app_nil_r. unfold tDefinitions. cbn [events flat_map]. rewrite flat_map_app. cbn [flat_map].
  rewrite !H3, !app_nil_r. cbn [app]. generalize (numbered (d0 :: ds)) as ps. induction ps as [|[i d] ps IH]; [reflexivity|]. cbn [map flat_map]. rewrite flat_map_app, IH. f_equal.
  rewrite (flat_rel f _ H1), rel_def. reflexivity.
Qed.
Lemma numbered_snd (ds : list definition) : map snd (numbered ds) = ds.
Proof. unfold numbered. generalize 0. induction ds as [|d ds IH]; intros s; [reflexivity|]. cbn. rewrite IH. reflexivity. Qed.
Lemma flat_snd {Y} (f : definition -> list Y) ds : flat_map (fun p => f (snd p)) (numbered ds) = flat_map f ds.
Proof. rewrite <- (numbered_snd ds) at 2. generalize (numbered ds) as ps. induction ps as [|p ps IH]; [reflexivity|]. cbn. rewrite IH. reflexivity. Qed.
