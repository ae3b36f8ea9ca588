(** * PropRules: C19–C26, C39, C43 — the rules applied to query documents ([validation.Validate] with rules.Specified). *)
From Coq Require Import Relations Permutation.
From Verif Require Import Base AST Parser Walker WalkSpec Context Rules CtxProofs RuleProofs RuleSpec QueryProofs Samples.

(** ** Specification vocabulary (see also RuleSpec.v: what occurs in a document, kinds of errors; CtxProofs.v: [occurs], [spreads]).
    [given s]: the schema a document is validated against, the empty one when none is given. *)
Definition executable (doc : document) : Prop := forall d, In d (doc_defs doc) -> is_exec d = true.
(** Variable [v] is used by definition [i]: in it, or in a fragment reachable from it by spreads. *)
Definition used (doc : document) (i : nat) (v : bytes) : Prop :=
  exists j, (j = i \/ clos_trans nat (spreads doc) i j) /\ occurs doc j v.
(** The unused variables of the operations, in order; [used_b] decides [used]. *)
Definition unused_errors (doc : document) (used_b : nat -> bytes -> bool) : list err :=
  flat_map (fun p => match def_body (snd p) with
    | DOp o => map (fun v => EUnusedVariable (v_name v) (o_name o)) (filter (fun v => negb (used_b (fst p) (v_name v))) (o_vars o))
    | _ => [] end) (combine (seq 0 (List.length (doc_defs doc))) (doc_defs doc)).

(** ** C39: the reachability helpers *)
Theorem C39_referenced_fragments : forall doc s i, exists l,
  recursively_referenced_fragments (new_context doc s) i = Some l /\ NoDup l /\ forall j, In j l <-> clos_trans nat (spreads doc) i j.
Proof. intros. apply recursively_referenced_fragments_spec. Qed.
Print Assumptions C39_referenced_fragments.
(** a context records a variable of a definition that is not executable for the executable definition before it *)
Theorem C39_variable_usages_any : forall doc s i, exists l, recursive_variable_usages (new_context doc s) i = Some l /\ NoDup l /\
  forall v, In v l <-> exists j k, (j = i \/ clos_trans nat (spreads doc) i j) /\ owns doc j k /\ occurs doc k v.
Proof.
  intros doc s i. destruct (recursive_variable_usages_spec doc s i) as (l & E & N & H). exists l. split; [exact E|]. split; [exact N|]. intros v. rewrite H. split.
  - intros (j & Hj & Hv). apply variable_usages_spec in Hv. destruct Hv as (k & Ho & Hv). exists j, k. auto.
  - intros (j & k & Hj & Ho & Hv). exists j. split; [exact Hj|]. apply variable_usages_spec. eauto.
Qed.
Print Assumptions C39_variable_usages_any.
Lemma spreads_exec doc i j : spreads doc i j -> exists d, nth_error (doc_defs doc) i = Some d /\ is_exec d = true.
Proof. intros (d & name & ds & f & dj & H & Hb & _). exists d. split; [exact H|]. eapply spread_exec, Hb. Qed.
Lemma spreads_exec2 doc i j : spreads doc i j -> exists d, nth_error (doc_defs doc) j = Some d /\ is_exec d = true.
Proof. intros (d & name & ds & f & dj & _ & _ & H & Hf & _). exists dj. split; [exact H|]. unfold is_exec. rewrite Hf. reflexivity. Qed.
Lemma reaches_exec doc i j : clos_trans nat (spreads doc) i j -> exists d, nth_error (doc_defs doc) j = Some d /\ is_exec d = true.
Proof. induction 1; [eapply spreads_exec2; eassumption|assumption]. Qed.
(** when variables only occur in executable definitions: *)
Definition no_stray_variables (doc : document) : Prop :=
  forall i d v, nth_error (doc_defs doc) i = Some d -> below (NDefinition i d) (NVariableValue (VVar v)) -> is_exec d = true.
Lemma executable_no_stray doc : executable doc -> no_stray_variables doc.
Proof. intros H i d v Hn _. apply H. eapply nth_error_In, Hn. Qed.
Theorem C39_variable_usages : forall doc s i d, no_stray_variables doc -> nth_error (doc_defs doc) i = Some d -> is_exec d = true ->
  exists l, recursive_variable_usages (new_context doc s) i = Some l /\ NoDup l /\ forall v, In v l <-> used doc i v.
Proof.
  intros doc s i d Hs Hd He. destruct (C39_variable_usages_any doc s i) as (l & E & N & H). exists l. split; [exact E|]. split; [exact N|]. intros v. rewrite H. split.
  - intros (j & k & Hj & Ho & Hv). exists j. split; [exact Hj|]. destruct Hv as (dk & Hk & Hb). pose proof (owns_exec _ _ _ _ Ho Hk (Hs _ _ _ Hk Hb)). subst k. exists dk. auto.
  - intros (j & Hj & Hv). exists j, j. split; [exact Hj|]. split; [|exact Hv].
    assert (Hx : exists dj, nth_error (doc_defs doc) j = Some dj /\ is_exec dj = true) by (destruct Hj as [->|Hj]; [exists d; auto|eapply reaches_exec, Hj]).
    destruct Hx as (dj & H1 & H2). eapply owns_refl; eassumption.
Qed.
Print Assumptions C39_variable_usages.
Definition cyc : document := src "query Q($v:Int){...A} fragment A on T{f(a:$v) ...B} fragment B on T{...A g(b:$w)}".
Example C39_nonvacuous : recursively_referenced_fragments (new_context cyc None) 0 = Some [2; 1] /\
  recursive_variable_usages (new_context cyc None) 0 = Some [B "w"; B "v"] /\ executable cyc /\ no_stray_variables cyc.
Proof.
  split; [vm_compute; reflexivity|]. split; [vm_compute; reflexivity|]. assert (H : executable cyc) by (intros d H; vm_compute in H; intuition subst; reflexivity).
  split; [exact H|apply executable_no_stray, H].
Qed.

(** ** C19: unused variables *)
Lemma unused_decidable doc : exists used_b, forall i v, used_b i v = true <-> exists j k, (j = i \/ clos_trans nat (spreads doc) i j) /\ owns doc j k /\ occurs doc k v.
Proof.
  exists (fun i v => match recursive_variable_usages (new_context doc None) i with Some l => inb v l | None => false end). intros i v.
  destruct (C39_variable_usages_any doc None i) as (l & E & _ & H). rewrite E, inb_In. apply H.
Qed.
(** For any document: exactly the variables that neither the operation, nor a fragment it reaches, nor a type system definition
    directly after one of them uses. *)
Theorem C19_any_document : forall doc s used_b,
  (forall i v, used_b i v = true <-> exists j k, (j = i \/ clos_trans nat (spreads doc) i j) /\ owns doc j k /\ occurs doc k v) ->
  reported is_unused (validate doc s) = unused_errors doc used_b.
Proof.
  intros doc s used_b Hu. rewrite q_unused, flat_defs; [|intros [] n Hn; destruct n; try reflexivity; discriminate Hn|intros []; reflexivity|intros []; reflexivity].
  apply flat_ext. intros [i d]. cbn [fst snd]. unfold head_events, heads. destruct (def_body d) as [o|f|x|x|x|x|x]; try reflexivity.
  cbn [rev app map flat_map fst snd leave g_unused]. rewrite app_nil_r.
  assert (E : forall v, match recursive_variable_usages (new_context doc s) i with Some l => inb v l | None => false end = used_b i v).
  { intros v. destruct (C39_variable_usages_any doc s i) as (l & E & _ & H). rewrite E. specialize (H v). rewrite <- Hu, <- inb_In in H. destruct (inb v l), (used_b i v); try reflexivity; intuition congruence. }
  generalize (o_vars o) as vs. induction vs as [|v vs IH]; [reflexivity|]. cbn [flat_map filter]. rewrite E, IH. destruct (used_b i (v_name v)); reflexivity.
Qed.
Print Assumptions C19_any_document.
(** For executable documents (and whenever variables occur in executable definitions only): exactly the unused ones. *)
Theorem C19_exact : forall doc s used_b, no_stray_variables doc -> 
  (forall i d v, nth_error (doc_defs doc) i = Some d -> is_exec d = true -> used_b i v = true <-> used doc i v) ->
  reported is_unused (validate doc s) = unused_errors doc used_b.
Proof.
  intros doc s used_b Hs Hu. destruct (unused_decidable doc) as (ub & Hub). rewrite (C19_any_document doc s ub Hub). unfold unused_errors.
  apply flat_ext_in. intros [i d] Hin. cbn [fst snd]. destruct (def_body d) as [o|f|x|x|x|x|x] eqn:Eb; try reflexivity. f_equal. apply filter_ext. intros v. f_equal.
  apply numbered_In in Hin. assert (Hx : is_exec d = true) by (unfold is_exec; rewrite Eb; reflexivity).
  destruct (C39_variable_usages doc s i d Hs Hin Hx) as (l & E & _ & H). destruct (C39_variable_usages_any doc s i) as (l' & E' & _ & H'). rewrite E in E'. injection E' as <-.
  specialize (H (v_name v)). specialize (H' (v_name v)). specialize (Hu i d (v_name v) Hin Hx). specialize (Hub i (v_name v)). rewrite H' in H. rewrite <- Hub, <- Hu in H.
  destruct (ub i (v_name v)), (used_b i (v_name v)); try reflexivity; intuition congruence.
Qed.
Print Assumptions C19_exact.
Lemma reported_In k c e : k e = true -> In e (c_errors c) <-> In e (reported k c).
Proof. intros H. unfold reported. rewrite <- in_rev, filter_In. intuition. Qed.
Theorem C19_iff : forall doc s v oname, executable doc ->
  In (EUnusedVariable v oname) (c_errors (validate doc s)) <->
  exists i d o vd, nth_error (doc_defs doc) i = Some d /\ def_body d = DOp o /\ o_name o = oname /\ In vd (o_vars o) /\ v_name vd = v /\ ~ used doc i v.
Proof.
  intros doc s v oname He. rewrite (reported_In is_unused) by reflexivity.
  set (ub := fun i v => match recursive_variable_usages (new_context doc s) i with Some l => inb v l | None => false end).
  assert (Hub : forall i d v, nth_error (doc_defs doc) i = Some d -> is_exec d = true -> ub i v = true <-> used doc i v).
  { intros i d w Hn Hx. unfold ub. destruct (C39_variable_usages doc s i d (executable_no_stray doc He) Hn Hx) as (l & E & _ & H). rewrite E, inb_In. apply H. }
  rewrite (C19_exact doc s ub (executable_no_stray doc He) Hub). unfold unused_errors. rewrite in_flat_map. split.
  - intros ([i d] & Hin & H). cbn [fst snd] in H. apply numbered_In in Hin. destruct (def_body d) as [o|f|x|x|x|x|x] eqn:Eb; try destruct H. apply in_map_iff in H.
    destruct H as (vd & E & H). injection E as <- <-. apply filter_In in H. destruct H as [H1 H2]. exists i, d, o, vd. repeat (split; [auto|]).
    assert (Hx : is_exec d = true) by (unfold is_exec; rewrite Eb; reflexivity). rewrite <- (Hub i d (v_name vd) Hin Hx). destruct (ub i (v_name vd)); [discriminate|congruence].
  - intros (i & d & o & vd & Hn & Eb & <- & Hv & <- & Hu). exists (i, d). split; [apply numbered_In, Hn|]. cbn [fst snd]. rewrite Eb. apply in_map_iff. exists vd. split; [reflexivity|].
    apply filter_In. split; [exact Hv|]. assert (Hx : is_exec d = true) by (unfold is_exec; rewrite Eb; reflexivity). rewrite <- (Hub i d (v_name vd) Hn Hx) in Hu. destruct (ub i (v_name vd)); [congruence|reflexivity].
Qed.
Print Assumptions C19_iff.
Definition unused_doc : document := src "query Q($v:Int $x:Int $y:Int){...A} fragment A on T{f(a:$v) ...B} fragment B on T{...A g(b:[{c:$x}])}".
Example C19_nonvacuous : executable unused_doc /\ reported is_unused (validate unused_doc None) = [EUnusedVariable (B "y") (B "Q")].
Proof. split; [intros d H; vm_compute in H; intuition subst; reflexivity|vm_compute; reflexivity]. Qed.
(** Documents that mix in type system definitions: $v is not used by Q, and not reported. *)
Theorem C19_mixed_document_refuted : let doc := src "query Q($v:Int){f} type T @d(a:$v) {f:Int}" in
  reported is_unused (validate doc None) = [] /\ ~ used doc 0 (B "v") /\ ~ executable doc.
Proof.
  cbv zeta. split; [vm_compute; reflexivity|]. split.
  - intros (j & Hj & Ho). assert (j = 0) as ->.
    { destruct Hj as [->|Hj]; [reflexivity|]. exfalso. apply clos_trans_tn1 in Hj. assert (G : exists i, spreads (src "query Q($v:Int){f} type T @d(a:$v) {f:Int}") i j) by (inversion Hj; eauto).
      destruct G as (i & d & nm & ds & f & dj & _ & _ & Hn & Hf & _). apply nth_error_In in Hn. vm_compute in Hn. intuition subst; discriminate. }
    destruct Ho as (d & Hn & Hb). assert (Hp : In (NVariableValue (VVar (B "v"))) (preorder (tDefinition (0, d)))) by (apply (preorder_below _ (ok_definition (0, d))); exact Hb).
    vm_compute in Hn. injection Hn as <-. revert Hp. vm_compute. intuition discriminate.
  - intros H. assert (X : forall d, In d (doc_defs (src "query Q($v:Int){f} type T @d(a:$v) {f:Int}")) -> is_exec d = true) by exact H.
    vm_compute in X. specialize (X _ (or_intror (or_introl eq_refl))). discriminate.
Qed.
Print Assumptions C19_mixed_document_refuted.

(** ** C20: lone anonymous operation *)
Theorem C20_exact : forall doc s, n_ops doc = List.length (operations doc) ->
  reported is_anon (validate doc s) = if Nat.ltb 1 (List.length (operations doc)) then map (fun _ => EAnonNotAlone) (filter (fun o => if bytes_dec (o_name o) [] then true else false) (operations doc)) else [].
Proof.
  intros doc s Hn. rewrite q_anon, flat_defs; [|intros [] n Hi; destruct n; try reflexivity; discriminate Hi|intros []; reflexivity|intros []; reflexivity].
  erewrite (flat_ext _ (fun p => (fun d => match def_body d with DOp o => if beqb (o_name o) [] && Nat.ltb 1 (n_ops doc) then [EAnonNotAlone] else [] | _ => [] end) (snd p))).
  2:{ intros [i d]. cbn [fst snd]. unfold head_events, heads. destruct (def_body d) as [o|f|x|x|x|x|x]; try reflexivity. cbn [rev app map flat_map fst snd enter g_anon]. rewrite app_nil_r, new_doc. reflexivity. }
  rewrite (flat_snd (fun d => match def_body d with DOp o => if beqb (o_name o) [] && Nat.ltb 1 (n_ops doc) then [EAnonNotAlone] else [] | _ => [] end)). rewrite Hn. clear Hn. generalize (Nat.ltb 1 (List.length (operations doc))) as b. intros b. unfold operations.
  destruct b.
  - induction (doc_defs doc) as [|d ds IH]; [reflexivity|]. cbn [flat_map]. rewrite IH, filter_app, map_app. f_equal. destruct (def_body d); try reflexivity. rewrite andb_true_r.
    cbn. destruct (bytes_dec (o_name o) []) as [->|E]; [reflexivity|]. replace (beqb (o_name o) []) with false by (symmetry; apply beqb_false; exact E). reflexivity.
  - induction (doc_defs doc) as [|d ds IH]; [reflexivity|]. cbn [flat_map]. rewrite IH. destruct (def_body d); try reflexivity. rewrite andb_false_r. reflexivity.
Qed.
Print Assumptions C20_exact.
Example C20_nonvacuous : let doc := src "{a} query Q{b} {c}" in n_ops doc = List.length (operations doc) /\ reported is_anon (validate doc None) = [EAnonNotAlone; EAnonNotAlone] /\
  reported is_anon (validate (src "{a} fragment F on T{b}") None) = [].
Proof. repeat split; vm_compute; reflexivity. Qed.

(** ** C21: known type names *)
Definition scalar_names : list bytes := map B ["String"; "Int"; "Float"; "Boolean"; "ID"]%string.
Theorem C21_exact : forall doc s known, (forall t, known t = true <-> (exists td, mget t (sc_types (given s)) = Some td) \/ In t scalar_names) ->
  reported is_unknown_type (validate doc s) = map EUnknownType (filter (fun t => negb (known t)) (type_refs doc)).
Proof.
  intros doc s known Hk. rewrite q_types, enter_nodes. unfold type_refs. 
  assert (E : forall t, known_type (new_context doc s) t = known t).
  { intros t. unfold known_type. rewrite new_schema, new_sdl, orb_false_r. specialize (Hk t). unfold mem, is_specified_scalar. fold scalar_names. rewrite <- inb_In in Hk.
    destruct (mget t (sc_types (given s))) as [td|]; cbn [orb]; [symmetry; apply Hk; eauto|]. destruct (inb t scalar_names) eqn:Ei; [symmetry; apply Hk; auto|].
    destruct (known t); [|reflexivity]. destruct (proj1 Hk eq_refl) as [(td & X)|X]; discriminate X. }
  induction (nodes doc) as [|n ns IH]; [reflexivity|]. cbn [flat_map]. rewrite IH, filter_app, map_app. f_equal. destruct n; try reflexivity. destruct t; try reflexivity.
  cbn [g_types]. rewrite E. cbn. destruct (known n); reflexivity.
Qed.
Print Assumptions C21_exact.
Theorem C21_iff : forall doc s t, In (EUnknownType t) (c_errors (validate doc s)) <->
  (exists nn, below (NDocument doc) (NNamedType (TNamed t nn))) /\ mget t (sc_types (given s)) = None /\ ~ In t scalar_names.
Proof.
  intros doc s t. rewrite (reported_In is_unknown_type) by reflexivity.
  set (known := fun t => orb (match mget t (sc_types (given s)) with Some _ => true | None => false end) (inb t scalar_names)).
  assert (Hk : forall t, known t = true <-> (exists td, mget t (sc_types (given s)) = Some td) \/ In t scalar_names).
  { intros u. unfold known. rewrite orb_true_iff, inb_In. destruct (mget u _); split; intros [H|H]; auto; [left; eauto|discriminate|destruct H; discriminate]. }
  rewrite (C21_exact doc s known Hk). rewrite in_map_iff. split.
  - intros (t' & E & H). injection E as ->. apply filter_In in H. destruct H as [H1 H2]. split.
    + unfold type_refs in H1. apply in_flat_map in H1. destruct H1 as (n & Hn & Ht). apply nodes_below in Hn. destruct n; try destruct Ht. destruct t0; try destruct Ht; [subst; eauto|destruct H].
    + specialize (Hk t). destruct (known t); [discriminate|]. split; [destruct (mget t _) eqn:E; [|reflexivity]|]; [assert (false = true) by (apply Hk; eauto); discriminate|intros Hi; assert (false = true) by (apply Hk; auto); discriminate].
  - intros ((nn & Hb) & Hm & Hi). exists t. split; [reflexivity|]. apply filter_In. split.
    + apply in_flat_map. exists (NNamedType (TNamed t nn)). split; [apply nodes_below, Hb|left; reflexivity].
    + specialize (Hk t). destruct (known t); [|reflexivity]. destruct (proj1 Hk eq_refl) as [(td & E)|E]; [congruence|contradiction].
Qed.
Print Assumptions C21_iff.
Example C21_nonvacuous : reported is_unknown_type (validate (src "query Q($a:[Foo!] $b:Int){...on Foo{x} ...on Bar{y}}")
   (Some (mkSchema None None None None [] [(B "Bar", scalar_type (B "Bar"))]))) = [EUnknownType (B "Foo"); EUnknownType (B "Foo")].
Proof. vm_compute. reflexivity. Qed.

(** ** C22: known directives *)
(** the definition of a directive that validation of a query goes by: the schema's, otherwise the built-in one *)
Definition directive_for (sch : schema) (n : bytes) : option dirdef :=
  match mget n (sc_dirs sch) with Some d => Some d | None => mget n [(B "skip", skip_directive); (B "include", include_directive); (B "deprecated", deprecated_directive)] end.
(** the location is one of those the definition lists (both are sets of bits) *)
Definition allowed (x : dirdef) (l : dirloc) : Prop := exists b, N.testbit (dd_locs x) b = true /\ N.testbit l b = true.
Lemma allowed_spec x l : N.eqb (N.land (dd_locs x) l) 0 = false <-> allowed x l.
Proof.
  unfold allowed. rewrite N.eqb_neq. split.
  - intros H. exists (N.log2 (N.land (dd_locs x) l)). pose proof (N.bit_log2 _ H) as B. rewrite N.land_spec in B. apply andb_true_iff in B. exact B.
  - intros (b & H1 & H2) E. assert (B : N.testbit (N.land (dd_locs x) l) b = true) by (rewrite N.land_spec, H1, H2; reflexivity). rewrite E, N.bits_0 in B. discriminate.
Qed.
Theorem C22_exact : forall doc s ok, (forall x l, ok x l = true <-> allowed x l) ->
  reported is_directive_err (validate doc s) =
  flat_map (fun d => match directive_for (given s) (d_name d) with
                     | None => [EUnknownDirective (d_name d)]
                     | Some x => if ok x (d_loc d) then [] else [EMisplaced (d_name d) (d_loc d)]
                     end) (applications doc).
Proof.
  intros doc s ok Hok. rewrite q_dirs, enter_nodes. unfold applications. rewrite flat_flat. apply flat_ext. intros n. destruct n; try reflexivity. cbn [g_dirs flat_map]. rewrite app_nil_r.
  unfold find_directive. rewrite new_schema, new_sdl. unfold directive_for. fold specified_directives. destruct (mget (d_name d) (sc_dirs (given s))) as [x|].
  - specialize (Hok x (d_loc d)). rewrite <- allowed_spec in Hok. destruct (N.eqb _ _), (ok x (d_loc d)); try reflexivity; intuition congruence.
  - destruct (mget (d_name d) specified_directives) as [x|]; [|reflexivity]. specialize (Hok x (d_loc d)). rewrite <- allowed_spec in Hok. destruct (N.eqb _ _), (ok x (d_loc d)); try reflexivity; intuition congruence.
Qed.
Print Assumptions C22_exact.
Example C22_nonvacuous : reported is_directive_err (validate (src "query Q @skip(if:true){a @skip(if:true) b @nope ...on T @include(if:false){c}}") None) =
  [EMisplaced (B "skip") LQuery; EUnknownDirective (B "nope")].
Proof. vm_compute. reflexivity. Qed.
Example C22_ok_exists : forall x l, negb (N.eqb (N.land (dd_locs x) l) 0) = true <-> allowed x l.
Proof. intros x l. rewrite <- allowed_spec. destruct (N.eqb _ _); cbn; split; congruence. Qed.

(** ** C23–C25: uniqueness.  [later l]: the elements of [l] that also occur at an earlier position (RuleSpec.v). *)
Theorem C23_exact : forall doc s, reported is_dup_directive (validate doc s) = flat_map (fun l => map EDupDirective (later l)) (directive_sites doc).
Proof.
  intros doc s. rewrite q_udirs, enter_nodes. unfold directive_sites. rewrite flat_flat. apply flat_ext. intros n. destruct n; try reflexivity. cbn. rewrite app_nil_r, later_repeats. reflexivity.
Qed.
Print Assumptions C23_exact.
Theorem C24_exact : forall doc s, reported is_dup_arg (validate doc s) = flat_map (fun l => map EDupArg (later l)) (argument_sites doc).
Proof.
  intros doc s. rewrite q_uargs, enter_nodes. unfold argument_sites. rewrite flat_flat. apply flat_ext. intros n. destruct n; try reflexivity; cbn [g_uargs]; try (cbn; rewrite app_nil_r, later_repeats; reflexivity).
  destruct s0; cbn; try reflexivity. rewrite app_nil_r, later_repeats. reflexivity.
Qed.
Print Assumptions C24_exact.
Theorem C25_exact : forall doc s, reported is_dup_input (validate doc s) = flat_map (fun l => map EDupInputField (later l)) (object_sites doc).
Proof.
  intros doc s. rewrite q_uinput, enter_nodes. unfold object_sites. rewrite flat_flat. apply flat_ext. intros n. destruct n; try reflexivity. destruct v; try reflexivity. cbn. rewrite app_nil_r, later_repeats. reflexivity.
Qed.
Print Assumptions C25_exact.
(** The number of repeats: a name that occurs [k] times at one place is reported [k-1] times there; none is reported iff there are no duplicates. *)
Theorem C23_repeats : forall l x, count_occ bytes_dec (later l) x = Nat.pred (count_occ bytes_dec l x).
Proof. exact count_later. Qed.
Print Assumptions C23_repeats.
Theorem C23_none_iff_unique : forall doc s,
  (reported is_dup_directive (validate doc s) = [] <-> Forall (@NoDup bytes) (directive_sites doc)) /\
  (reported is_dup_arg (validate doc s) = [] <-> Forall (@NoDup bytes) (argument_sites doc)) /\
  (reported is_dup_input (validate doc s) = [] <-> Forall (@NoDup bytes) (object_sites doc)).
Proof.
  assert (G : forall (f : bytes -> err) sites, flat_map (fun l => map f (later l)) sites = [] <-> Forall (@NoDup bytes) sites).
  { intros f sites. induction sites as [|l sites IH]; cbn; [split; constructor|]. split.
    - intros H. apply app_eq_nil in H. destruct H as [H1 H2]. constructor; [|apply IH, H2]. apply later_nil. destruct (later l); [reflexivity|discriminate].
    - intros H. inversion H; subst. apply later_nil in H2. rewrite H2. cbn. apply IH. assumption. }
  intros doc s. rewrite C23_exact, C24_exact, C25_exact. split; [apply G|]. split; apply G.
Qed.
Print Assumptions C23_none_iff_unique.
(** A place is a node of the document: nothing else is looked at, so siblings and nested nodes do not interfere. *)
Theorem C24_sites : forall doc l, In l (argument_sites doc) <->
  (exists al n args ds ss, below (NDocument doc) (NFieldSelection (SField al n args ds ss)) /\ l = map arg_name args) \/
  (exists d, below (NDocument doc) (NDirective d) /\ l = map arg_name (d_args d)) \/
  (exists f, below (NDocument doc) (NFieldDefinition f) /\ l = map i_name (fd_args f)) \/
  (exists d, below (NDocument doc) (NDirectiveDefinition d) /\ l = map i_name (dd_args d)).
Proof.
  intros doc l. unfold argument_sites. rewrite in_flat_map. split.
  - intros (n & Hn & H). apply nodes_below in Hn. destruct n; try destruct H; subst.
    + destruct s; cbn in H; [|destruct H|destruct H]. destruct H as [<-|[]]. left. eauto 8.
    + right; left; eauto.
    + destruct H.
    + right; right; right; eauto.
    + destruct H.
    + right; right; left; eauto.
    + destruct H.
  - intros [(al & n & args & ds & ss & Hb & ->)|[(d & Hb & ->)|[(f & Hb & ->)|(d & Hb & ->)]]]; eexists; (split; [apply nodes_below; exact Hb|left; reflexivity]).
Qed.
Print Assumptions C24_sites.
Example C23_nonvacuous : let doc := src "{a(x:1 y:{p:1 q:{p:2 p:3} p:4} x:2 x:3) @d @e @d {b(x:1)} a(x:1) @d}" in
  reported is_dup_directive (validate doc None) = [EDupDirective (B "d")] /\ reported is_dup_arg (validate doc None) = [EDupArg (B "x"); EDupArg (B "x")] /\
  reported is_dup_input (validate doc None) = [EDupInputField (B "p"); EDupInputField (B "p")].
Proof. repeat split; vm_compute; reflexivity. Qed.

(** ** C26: executable definitions only *)
Definition defined_name (b : body) : bytes :=
  match b with DSchema _ | XSchema _ => B "schema" | DType t | XType t => t_name t | DDir d => dd_name d | DOp o => o_name o | DFrag f => f_name f end.
Theorem C26_exact : forall doc s, reported is_nonexec (validate doc s) =
  map (fun d => ENonExecutable (defined_name (def_body d))) (filter (fun d => match def_body d with DOp _ | DFrag _ => false | _ => true end) (doc_defs doc)).
Proof.
  intros doc s. rewrite q_exec, flat_defs; [|intros [] n Hi; destruct n; try reflexivity; discriminate Hi|intros []; reflexivity|intros []; reflexivity].
  erewrite (flat_ext _ (fun p => (fun d => match def_body d with DOp _ | DFrag _ => [] | b => [ENonExecutable (definition_name b)] end) (snd p))).
  2:{ intros [i d]. cbn [fst snd]. unfold head_events, heads. destruct (def_body d) as [o|f|x|x|x|x|x] eqn:E; cbn [rev app map flat_map fst snd enter g_exec]; rewrite E; reflexivity. }
  rewrite (flat_snd (fun d => match def_body d with DOp _ | DFrag _ => [] | b => [ENonExecutable (definition_name b)] end)).
  induction (doc_defs doc) as [|d ds IH]; [reflexivity|]. cbn [flat_map filter]. rewrite IH. destruct (def_body d) eqn:E; try reflexivity; cbn [map]; rewrite E; reflexivity.
Qed.
Print Assumptions C26_exact.
Example C26_nonvacuous : reported is_nonexec (validate (src "{a} type T{f:Int} schema{query:T} extend type T @d fragment F on T{b}") None) =
  [ENonExecutable (B "T"); ENonExecutable (B "schema"); ENonExecutable (B "T")].
Proof. vm_compute. reflexivity. Qed.

(** ** C43: validation reads only; the order of the rules does not matter *)
Theorem C43_read_only : forall doc s, c_doc (validate doc s) = doc /\ c_schema (validate doc s) = given s /\ c_crash (validate doc s) = false.
Proof.
  intros doc s. destruct (validate_ctx doc s) as (es & ->). cbn [c_doc c_schema c_crash set_errors]. rewrite new_doc, new_schema, new_crash. auto.
Qed.
Print Assumptions C43_read_only.
Theorem C43_rule_order : forall rules doc s, Permutation rules Specified ->
  Permutation (c_errors (walk (new_walker rules) doc (new_context doc s))) (c_errors (validate doc s)).
Proof. intros. apply order_errors. assumption. Qed.
Print Assumptions C43_rule_order.
(** Every error is of one of the kinds above: an empty report for each of them means that the document is accepted. *)
Theorem C43_no_other_errors : forall doc s e, In e (c_errors (validate doc s)) -> query_kinds e = true.
Proof. intros doc s e H. pose proof (q_kinds doc s) as F. rewrite Forall_forall in F. apply F, H. Qed.
Print Assumptions C43_no_other_errors.
Example C43_nonvacuous : Permutation (rev Specified) Specified /\ List.length (c_errors (validate (src "query Q($a:Foo){a @d @d} {b} type T") None)) = 7.
Proof. split; [symmetry; apply Permutation_rev|vm_compute; reflexivity]. Qed.
