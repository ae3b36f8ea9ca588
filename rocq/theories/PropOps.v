(** * PropOps: C47, the rule UniqueOperationNames. *)
From Verif Require Import Base AST Walker WalkSpec Context Rules CtxProofs RuleProofs RuleSpec QueryProofs SdlProofs OpNames Samples.

(** ** Specification *)
(** The elements of a list that occur again further on. *)
Fixpoint recurring (l : list bytes) : list bytes :=
  match l with [] => [] | x :: r => (if in_dec bytes_dec x r then [x] else []) ++ recurring r end.
(** The name under which an operation is known: anonymous ones all share one. *)
Definition known_as (o : opdef) : bytes := match o_name o with [] => B "$$query" | n => n end.
Definition is_dup_op (e : err) : bool := match e with EDupOperationName _ => true | _ => false end.

(** ** The rule *)
Definition g_op (ops : emap nat) (c : ctx) (n : node) : list err :=
  match n with
  | NExecutable i (DOp o) => match mget (o_name o) ops with Some j => if Nat.eqb j i then [] else [EDupOperationName (o_name o)] | None => [] end
  | _ => []
  end.
Lemma sem_op good ops : sem good (UniqueOperationNames ops) (enter (g_op ops)) still.
Proof.
  apply still_sem; [intros; apply add_ext| |intros; destruct ph; reflexivity].
  triv. destruct b; try (symmetry; apply emit_nil). destruct (mget _ _) as [j|]; [|symmetry; apply emit_nil]. destruct (Nat.eqb j i); [symmetry; apply emit_nil|apply emit_one].
Qed.

Definition noop (es : list err) : Prop := Forall (fun e => is_dup_op e = false) es.
Lemma Gs_snoc xs y c ph n : Gs (xs ++ [y]) c ph n = Gs xs c ph n ++ rs_g y (Us xs c ph n) ph n.
Proof. revert c. induction xs as [|x xs IH]; intros c; cbn [app Gs Us]; [apply app_nil_r|]. rewrite IH, app_assoc. reflexivity. Qed.
Lemma Us_snoc xs y c ph n : rs_u y = still -> Us (xs ++ [y]) c ph n = Us xs c ph n.
Proof. intros E. revert c. induction xs as [|x xs IH]; intros c; cbn [app Us]; [rewrite E; reflexivity|]. apply IH. Qed.
Lemma Ge_snoc xs ops c es : (forall c ph n, noop (Gs xs c ph n)) ->
  filter is_dup_op (Ge (xs ++ [mkRs (UniqueOperationNames ops) (enter (g_op ops)) still]) c es) = flat_map (fun e => enter (g_op ops) c (fst e) (snd e)) es /\
  filter (fun e => negb (is_dup_op e)) (Ge (xs ++ [mkRs (UniqueOperationNames ops) (enter (g_op ops)) still]) c es) = Ge xs c es.
Proof.
  intros H. revert c. induction es as [|[ph n] es IH]; intros c; [split; reflexivity|]. cbn [Ge flat_map]. rewrite Gs_snoc, Us_snoc, !filter_app by reflexivity. cbn [rs_g fst snd].
  destruct (IH (Us xs c ph n)) as [-> ->]. specialize (H c ph n).
  assert (A : filter is_dup_op (Gs xs c ph n) = []) by (apply (filter_all_false _ _ _ H); auto).
  assert (A' : filter (fun e => negb (is_dup_op e)) (Gs xs c ph n) = Gs xs c ph n).
  { clear A. induction H as [|x l Hx _ IHl]; [reflexivity|]. cbn. rewrite Hx. cbn. rewrite IHl. reflexivity. }
  assert (B' : forall c0, Forall (fun e => is_dup_op e = true) (enter (g_op ops) c0 ph n)).
  { intros c0. destruct ph; [|constructor]. destruct n; cbn; try constructor. destruct b; try constructor. destruct (mget _ _) as [j|]; [|constructor]. destruct (Nat.eqb j i); repeat constructor. }
  rewrite A, A'. split.
  - cbn [app]. f_equal. { destruct ph; [|reflexivity]. cbn [enter] in *. specialize (B' c). unfold g_op in *.
      induction B' as [|x l Hx _ IHl]; [reflexivity|]. cbn. rewrite Hx, IHl. reflexivity. }
  - rewrite (filter_all_false _ _ _ (B' (Us xs c ph n))) by (intros x ->; reflexivity). rewrite app_nil_r. reflexivity.
Qed.

(** ** The map of pointers *)
Definition ops_of (ps : list (nat * definition)) : list (nat * bytes) := flat_map (fun p => match def_body (snd p) with DOp o => [(fst p, o_name o)] | _ => [] end) ps.
Definition pointers (l : list (nat * bytes)) (m : emap nat) : emap nat := fold_left (fun m p => mset (snd p) (fst p) m) l m.
Lemma op_pointers_fold ps m : fold_left (fun m p => match def_body (snd p) with DOp o => mset (o_name o) (fst p) m | _ => m end) ps m = pointers (ops_of ps) m.
Proof. revert m. induction ps as [|[i d] ps IH]; intros m; [reflexivity|]. cbn [fold_left ops_of flat_map fst snd]. rewrite IH. destruct (def_body d); reflexivity. Qed.
(** the map holds the last pointer for every name *)
Lemma pointers_get l : forall m n, mget n (pointers l m) = match find (fun p => beqb n (snd p)) (rev l) with Some p => Some (fst p) | None => mget n m end.
Proof.
  induction l as [|[i x] l IH]; intros m n; [reflexivity|]. cbn [pointers fold_left rev fst snd]. unfold pointers in IH. rewrite IH, find_app. cbn [find snd].
  destruct (find _ (rev l)); [reflexivity|]. rewrite mget_mset. destruct (beqb n x); reflexivity.
Qed.
Lemma flat_report l : NoDup (map fst l) ->
  flat_map (fun p => match mget (snd p) (pointers l []) with Some j => if Nat.eqb j (fst p) then [] else [EDupOperationName (snd p)] | None => [] end) l
  = map EDupOperationName (recurring (map snd l)).
Proof.
  assert (G : forall l m, NoDup (map fst l) -> flat_map (fun p => match mget (snd p) (pointers l m) with Some j => if Nat.eqb j (fst p) then [] else [EDupOperationName (snd p)] | None => [] end) l
    = map EDupOperationName (recurring (map snd l))); [|apply G].
  clear. induction l as [|[i x] l IH]; intros m Hd; [reflexivity|]. cbn [flat_map map recurring fst snd]. inversion Hd as [|? ? Hi Hd']; subst. rewrite map_app. f_equal.
  - rewrite pointers_get. cbn [rev]. rewrite find_app. cbn [find snd]. destruct (find (fun p => beqb x (snd p)) (rev l)) as [[j y]|] eqn:E.
    + apply find_some in E. destruct E as [E1 E2]. cbn in E2. destruct (beqb_spec x y) as [<-|]; [|discriminate]. apply in_rev in E1.
      destruct (in_dec bytes_dec x (map snd l)) as [_|Hn]; [|destruct Hn; apply (in_map snd) in E1; exact E1]. cbn [fst].
      destruct (Nat.eqb_spec j i) as [->|]; [|reflexivity]. destruct Hi. apply (in_map fst) in E1. exact E1.
    + destruct (in_dec bytes_dec x (map snd l)) as [Hin|_]; [|destruct (beqb_spec x x); [|congruence]; cbn; rewrite Nat.eqb_refl; reflexivity].
      apply in_map_iff in Hin. destruct Hin as ([j y] & E2 & Hin). cbn in E2. subst y. apply in_rev in Hin. pose proof (find_none _ _ E _ Hin) as X. cbn in X. destruct (beqb_spec x x); congruence.
  - rewrite <- (IH (mset x i m) Hd'). reflexivity.
Qed.
Lemma numbered_nodup (ds : list definition) : NoDup (map fst (numbered ds)).
Proof.
  unfold numbered. assert (E : forall s, map fst (combine (seq s (List.length ds)) ds) = seq s (List.length ds)).
  { induction ds as [|d ds IH]; intros s; [reflexivity|]. cbn. rewrite IH. reflexivity. }
  rewrite E. apply seq_NoDup.
Qed.
Lemma ops_nodup ps : NoDup (map fst ps) -> NoDup (map fst (ops_of ps)).
Proof.
  induction ps as [|[i d] ps IH]; intros H; [constructor|]. cbn [ops_of flat_map fst snd]. inversion H as [|? ? Hi Hd]; subst. specialize (IH Hd).
  destruct (def_body d); try exact IH. cbn. constructor; [|exact IH]. intros X. apply Hi. apply in_map_iff in X. destruct X as ([j y] & <- & X). unfold ops_of in X. apply in_flat_map in X.
  destruct X as ([k d'] & Hk & X). cbn in X. destruct (def_body d'); try contradiction; destruct X as [X|[]]. injection X as <- <-. apply (in_map fst) in Hk. exact Hk.
Qed.
Lemma ops_names (ds : list definition) : map snd (ops_of (numbered (map name_definition ds))) = map known_as (flat_map (fun d => match def_body d with DOp o => [o] | _ => [] end) ds).
Proof.
  unfold numbered. rewrite map_length. generalize 0. induction ds as [|d ds IH]; intros s; [reflexivity|]. cbn [List.length seq map combine ops_of flat_map fst snd]. rewrite !map_app. 
  unfold ops_of in IH. rewrite IH. f_equal. unfold name_definition. destruct (def_body d) as [o| | | | | |] eqn:E; rewrite ?E; try reflexivity. cbn. unfold name_operation, known_as. destruct (o_name o) eqn:En; cbn; rewrite ?En; reflexivity.
Qed.
Lemma op_events c doc : flat_map (fun e => enter (g_op (op_pointers (name_document doc))) c (fst e) (snd e)) (events (tDocument (name_document doc))) = map EDupOperationName (recurring (map known_as (operations doc))).
Proof.
  rewrite flat_defs.
  - unfold operations. cbn [name_document doc_defs]. rewrite <- ops_names. rewrite <- flat_report by (apply ops_nodup, numbered_nodup). unfold op_pointers. rewrite op_pointers_fold. cbn [name_document doc_defs].
    generalize (pointers (ops_of (numbered (map name_definition (doc_defs doc)))) []) as m. intros m.
    induction (numbered (map name_definition (doc_defs doc))) as [|[i d] ps IH]; [reflexivity|]. cbn [flat_map ops_of fst snd]. rewrite flat_map_app, IH. f_equal.
    unfold head_events, heads. destruct (def_body d); try reflexivity.
  - intros ph n Hn. destruct ph; [|reflexivity]. destruct n; try reflexivity. discriminate.
  - intros []; reflexivity.
  - intros []; reflexivity.
Qed.

Lemma noop_sdl c ph n : noop (Gs sdl_rules c ph n).
Proof.
  unfold noop. apply Forall_forall. intros e He. destruct (is_dup_op e) eqn:E; [|reflexivity].
  assert (X : In e (filter (fun e => Nat.eqb (tag e) 0) (Gs sdl_rules c ph n))) by (apply filter_In; split; [exact He|destruct e; try discriminate E; reflexivity]).
  rewrite filter_Gs in X. destruct X.
Qed.
Lemma opnames_errors doc s : let d := name_document doc in c_errors (validate_sdl_opnames doc s) =
  rev (Ge (sdl_rules ++ [mkRs (UniqueOperationNames (op_pointers d)) (enter (g_op (op_pointers d))) still]) (new_sdl_context doc s) (events (tDocument d))) ++ c_errors (new_sdl_context doc s).
Proof.
  cbv zeta. unfold validate_sdl_opnames. cbv zeta. rewrite new_sdl_doc. set (d := name_document doc). set (y := mkRs (UniqueOperationNames (op_pointers d)) (enter (g_op (op_pointers d))) still).
  change (SpecifiedSDL ++ [UniqueOperationNames (op_pointers d)]) with (map rs_rule (sdl_rules ++ [y])).
  apply (walk_errors goods goods_set); [|apply goods_new]. apply Forall_app. split; [apply sdl_rules_ok|]. constructor; [apply sem_op|constructor].
Qed.
Lemma prep_noop doc s : noop (c_errors (new_sdl_context doc s)).
Proof.
  destruct (prepare_spec doc s) as (sd & H). pose proof (pr_e_kinds _ _ _ _ _ _ H) as F. unfold noop. eapply Forall_impl; [|exact F]. intros e. destruct e; cbn; congruence.
Qed.

(** ** C47 *)
(** The rule reports, in document order, every operation whose name is used again by a later operation. *)
Theorem C47_exact : forall doc s, reported is_dup_op (validate_sdl_opnames doc s) = map EDupOperationName (recurring (map known_as (operations doc))).
Proof.
  intros doc s. unfold reported. rewrite opnames_errors, filter_app. rewrite (filter_all_false is_dup_op _ _ (prep_noop _ s)) by auto. rewrite app_nil_r, filter_rev', rev_involutive.
  destruct (Ge_snoc sdl_rules (op_pointers (name_document doc)) (new_sdl_context doc s) (events (tDocument (name_document doc))) noop_sdl) as [-> _]. apply op_events.
Qed.
Print Assumptions C47_exact.

(** It is silent exactly when no two operations share a name. *)
Lemma recurring_nil l : recurring l = [] <-> NoDup l.
Proof.
  induction l as [|x l IH]; cbn [recurring]; [split; [constructor|reflexivity]|]. destruct (in_dec bytes_dec x l) as [H|H]; cbn [app].
  - split; [discriminate|]. intros X. inversion X; contradiction.
  - rewrite IH. split; [intros X; constructor; assumption|]. intros X. inversion X; assumption.
Qed.
Theorem C47_silent : forall doc s, reported is_dup_op (validate_sdl_opnames doc s) = [] <-> NoDup (map known_as (operations doc)).
Proof. intros doc s. rewrite C47_exact, <- recurring_nil. destruct (recurring _); cbn; split; congruence. Qed.
Print Assumptions C47_silent.
(** A name used [k] times is reported [k - 1] times. *)
Lemma count_reported (c : ctx) l n : reported is_dup_op c = map EDupOperationName (recurring l) ->
  count_occ bytes_dec (flat_map (fun e => match e with EDupOperationName m => [m] | _ => [] end) (c_errors c)) n = Nat.pred (count_occ bytes_dec l n).
Proof.
  unfold reported. generalize (c_errors c) as es. clear c. intros es X.
  assert (A : count_occ bytes_dec (flat_map (fun e => match e with EDupOperationName m => [m] | _ => [] end) es) n
      = count_occ bytes_dec (flat_map (fun e => match e with EDupOperationName m => [m] | _ => [] end) (rev (filter is_dup_op es))) n).
  { clear X. induction es as [|e es IH]; [reflexivity|]. cbn [flat_map filter]. rewrite count_occ_app, IH. destruct e; cbn [is_dup_op count_occ]; try reflexivity. cbn [rev]. rewrite flat_map_app, count_occ_app. cbn [flat_map app]. apply Nat.add_comm. }
  rewrite A, X.
  assert (B' : forall l, flat_map (fun e => match e with EDupOperationName m => [m] | _ => [] end) (map EDupOperationName l) = l) by (clear; induction l as [|x l IH]; [reflexivity|cbn; rewrite IH; reflexivity]).
  rewrite B'. clear. induction l as [|x l IH]; [reflexivity|]. cbn [recurring]. rewrite count_occ_app, IH. cbn [count_occ].
  destruct (in_dec bytes_dec x l) as [H|H]; cbn [count_occ]; destruct (bytes_dec x n) as [->|Hn]; try reflexivity; try lia.
  - apply (count_occ_In bytes_dec) in H. lia.
  - rewrite (proj1 (count_occ_not_In bytes_dec l n) H). reflexivity.
Qed.
Theorem C47_count : forall doc s n, count_occ bytes_dec (flat_map (fun e => match e with EDupOperationName m => [m] | _ => [] end) (c_errors (validate_sdl_opnames doc s))) n =
  Nat.pred (count_occ bytes_dec (map known_as (operations doc)) n).
Proof. intros doc s n. apply count_reported, C47_exact. Qed.
Print Assumptions C47_count.

(** Adding the rule changes no other report, nor does the renaming of anonymous operations. *)
Theorem C47_others_unchanged : forall doc s, filter (fun e => negb (is_dup_op e)) (c_errors (validate_sdl_opnames doc s)) = c_errors (validate_sdl doc s).
Proof.
  intros doc s. rewrite opnames_errors, filter_app, filter_rev'.
  destruct (Ge_snoc sdl_rules (op_pointers (name_document doc)) (new_sdl_context doc s) (events (tDocument (name_document doc))) noop_sdl) as [_ ->].
  rewrite sdl_errors, Ge_named. f_equal. generalize (prep_noop doc s). generalize (c_errors (new_sdl_context doc s)) as l. induction 1 as [|e l H _ IH]; [reflexivity|]. cbn. rewrite H. cbn. rewrite IH. reflexivity.
Qed.
Print Assumptions C47_others_unchanged.

(** On query documents the rule never reports anything, whatever the operations are called. *)
Theorem C47_queries_never : forall doc s, c_errors (validate_opnames doc s) = c_errors (validate doc s).
Proof.
  intros doc s. unfold validate_opnames. set (y := mkRs (UniqueOperationNames []) (enter (g_op [])) still).
  change (Specified ++ [UniqueOperationNames []]) with (map rs_rule (query_rules ++ [y])). unfold validate. change Specified with (map rs_rule query_rules).
  rewrite (walk_errors goodq goodq_set (query_rules ++ [y])); [| |apply goodq_new].
  - rewrite (walk_errors goodq goodq_set query_rules query_rules_ok _ _ (goodq_new doc s)). f_equal. f_equal. generalize (new_context doc s) as c. generalize (events (tDocument doc)) as es.
    induction es as [|[ph n] es IH]; intros c; [reflexivity|]. cbn [Ge]. rewrite Gs_snoc, Us_snoc, IH by reflexivity. cbn [rs_g y]. f_equal.
    assert (A : enter (g_op []) (Us query_rules c ph n) ph n = []) by (destruct ph; [|reflexivity]; destruct n; try reflexivity; cbn; destruct b; reflexivity). rewrite A. apply app_nil_r.
  - apply Forall_app. split; [apply query_rules_ok|]. constructor; [apply sem_op|constructor].
Qed.
Print Assumptions C47_queries_never.
Theorem C47_queries_miss_duplicates : exists doc, ~ NoDup (map known_as (operations doc)) /\ c_errors (validate_opnames doc None) = [].
Proof.
  exists (src "query a { x } query a { y }"). split; [|vm_compute; reflexivity]. rewrite <- recurring_nil. vm_compute. discriminate.
Qed.
Print Assumptions C47_queries_miss_duplicates.
Example C47_nonvacuous : let doc := src "query a { x } { y } query b { z } query a { x } query a { u } type T { f: ID } { w } type T { g: ID }" in
  reported is_dup_op (validate_sdl_opnames doc None) = [EDupOperationName (B "a"); EDupOperationName (B "$$query"); EDupOperationName (B "a")] /\
  c_errors (validate_sdl doc None) <> [].
Proof. split; [vm_compute; reflexivity|vm_compute; discriminate]. Qed.
