(** * QueryProofs: the errors of query validation, kind by kind. *)
From Coq Require Import Permutation.
From Verif Require Import Base AST Walker WalkSpec Context Rules CtxProofs RuleProofs RuleSpec.

(** the rule that emits an error *)
Definition tag (e : err) : nat :=
  match e with
  | ENonExecutable _ => 1 | EAnonNotAlone => 2 | EUnknownType _ => 3 | EUnusedVariable _ _ => 4 | EUnknownDirective _ | EMisplaced _ _ => 5
  | EDupDirective _ => 6 | EDupArg _ => 7 | EDupInputField _ => 8 | EUnknownDirArg _ _ => 9 | ETwoUnderscores _ => 10
  | EExtendKind _ _ | EExtendUnknown _ => 11 | EMissingArg _ _ _ => 12 | EDupOperationType _ | EExistedOperationType _ => 13
  | _ => 0
  end.
Definition tagged (t : nat) (g : ctx -> phase -> node -> list err) : Prop := forall c ph n, Forall (fun e => tag e = t) (g c ph n).
Lemma tag_map (f : bytes -> err) t l : (forall x, tag (f x) = t) -> Forall (fun e => tag e = t) (map f l).
Proof. intros H. apply Forall_map. apply Forall_forall. intros. apply H. Qed.
Lemma tag_flat {X} (f : X -> list err) t l : (forall x, Forall (fun e => tag e = t) (f x)) -> Forall (fun e => tag e = t) (flat_map f l).
Proof. intros H. induction l; cbn; [constructor|]. apply Forall_app. auto. Qed.
Ltac tg := intros c ph n; destruct ph; destruct n; cbn; repeat match goal with
  | |- context [match ?x with _ => _ end] => destruct x eqn:?; cbn
  | |- Forall _ (map _ _) => apply tag_map; intros; reflexivity
  end; repeat first [constructor | apply tag_map; intros; reflexivity]; try reflexivity.
Lemma tg_exec : tagged 1 (enter g_exec). Proof. tg. Qed.
Lemma tg_anon : tagged 2 (enter g_anon). Proof. tg. Qed.
Lemma tg_types : tagged 3 (enter g_types). Proof. tg. Qed.
Lemma tg_unused : tagged 4 (leave g_unused).
Proof.
  intros c ph n; destruct ph; [constructor|]. destruct n; cbn; try constructor. destruct b; try constructor. apply tag_flat. intros v. destruct (match recursive_variable_usages c i with Some l => inb (v_name v) l | None => false end); repeat constructor.
Qed.
Lemma tg_dirs : tagged 5 (enter g_dirs).
Proof. intros c ph n; destruct ph; [|constructor]. destruct n; cbn; try constructor. destruct (find_directive c (d_name d)); [destruct (N.eqb _ _)|]; repeat constructor. Qed.
Lemma tg_udirs : tagged 6 (enter g_udirs). Proof. tg. Qed.
Lemma tg_uargs : tagged 7 (enter g_uargs). Proof. tg. Qed.
Lemma tg_uinput : tagged 8 (enter g_uinput). Proof. tg. Qed.

Lemma filter_tag t g c ph n t' : tagged t' g -> filter (fun e => Nat.eqb (tag e) t) (g c ph n) = if Nat.eqb t' t then g c ph n else [].
Proof.
  intros H. specialize (H c ph n). induction H as [|e l E _ IH]; cbn; [destruct (Nat.eqb t' t); reflexivity|]. rewrite E, IH. destruct (Nat.eqb t' t); reflexivity.
Qed.

Definition query_rules : list rsem :=
  [mkRs ExecutableDefinitions (enter g_exec) still; mkRs LoneAnonymousOperation (enter g_anon) still; mkRs KnownTypeNames (enter g_types) still;
   mkRs NoUnusedVariables (leave g_unused) still; mkRs KnownDirectives (enter g_dirs) still; mkRs UniqueDirectivesPerLocation (enter g_udirs) still;
   mkRs UniqueArgumentNames (enter g_uargs) still; mkRs UniqueInputFieldNames (enter g_uinput) still].
Lemma query_rules_rules : map rs_rule query_rules = Specified. Proof. reflexivity. Qed.
Lemma query_rules_ok : Forall (rsem_ok goodq) query_rules.
Proof.
  repeat (apply Forall_cons); [apply sem_ExecutableDefinitions|apply sem_LoneAnonymousOperation|apply sem_KnownTypeNames|apply sem_NoUnusedVariables|apply sem_KnownDirectives|
    apply sem_UniqueDirectivesPerLocation|apply sem_UniqueArgumentNames|apply sem_UniqueInputFieldNames|constructor].
Qed.
Lemma query_rules_still : Forall (fun x => rs_u x = still) query_rules. Proof. repeat constructor. Qed.
Lemma goodq_set e c : goodq c -> goodq (set_errors e c).
Proof. intros [H1 H2]. split; [exact H1|]. intros i. rewrite rvu_set. apply H2. Qed.
Lemma goodq_new doc s : goodq (new_context doc s).
Proof.
  split; [destruct (new_context_same doc s) as (_ & _ & _ & E & _); exact E|]. intros i.
  destruct (recursive_variable_usages_spec doc s i) as (l & E & _). congruence.
Qed.
Lemma new_errors doc s : c_errors (new_context doc s) = [].
Proof. destruct (new_context_same doc s) as (_ & E & _). exact E. Qed.
Lemma validate_errors doc s : c_errors (validate doc s) = rev (flat_map (fun e => flat_map (fun x => rs_g x (new_context doc s) (fst e) (snd e)) query_rules) (events (tDocument doc))).
Proof.
  unfold validate. rewrite <- query_rules_rules. rewrite (walk_errors goodq goodq_set query_rules query_rules_ok _ _ (goodq_new doc s)), new_errors, app_nil_r.
  rewrite Ge_still by exact query_rules_still. reflexivity.
Qed.

(** All errors of one rule. *)
Lemma reported_tag k t doc s g : (forall e, k e = Nat.eqb (tag e) t) ->
  (forall c ph n, filter (fun e => Nat.eqb (tag e) t) (flat_map (fun x => rs_g x c ph n) query_rules) = g c ph n) ->
  reported k (validate doc s) = flat_map (fun e => g (new_context doc s) (fst e) (snd e)) (events (tDocument doc)).
Proof.
  intros Hk Hg. unfold reported. rewrite validate_errors, filter_rev', rev_involutive, filter_flat. apply flat_ext. intros e. rewrite <- Hg. apply filter_ext. exact Hk.
Qed.
Lemma enter_nodes g c doc : flat_map (fun e => enter g c (fst e) (snd e)) (events (tDocument doc)) = flat_map (g c) (nodes doc).
Proof. unfold enter. rewrite (flat_enter (g c)), events_enter. reflexivity. Qed.
Ltac qt := intros; cbn [query_rules flat_map rs_g]; rewrite ?filter_app;
  rewrite ?(filter_tag _ _ _ _ _ 1 tg_exec), ?(filter_tag _ _ _ _ _ 2 tg_anon), ?(filter_tag _ _ _ _ _ 3 tg_types), ?(filter_tag _ _ _ _ _ 4 tg_unused), ?(filter_tag _ _ _ _ _ 5 tg_dirs),
    ?(filter_tag _ _ _ _ _ 6 tg_udirs), ?(filter_tag _ _ _ _ _ 7 tg_uargs), ?(filter_tag _ _ _ _ _ 8 tg_uinput); cbn [Nat.eqb app filter]; rewrite ?app_nil_r; reflexivity.
Ltac kk := let e := fresh in intros e; destruct e; reflexivity.
Lemma q_exec doc s : reported is_nonexec (validate doc s) = flat_map (fun e => enter g_exec (new_context doc s) (fst e) (snd e)) (events (tDocument doc)).
Proof. apply (reported_tag _ 1); [kk|qt]. Qed.
Lemma q_anon doc s : reported is_anon (validate doc s) = flat_map (fun e => enter g_anon (new_context doc s) (fst e) (snd e)) (events (tDocument doc)).
Proof. apply (reported_tag _ 2); [kk|qt]. Qed.
Lemma q_types doc s : reported is_unknown_type (validate doc s) = flat_map (fun e => enter g_types (new_context doc s) (fst e) (snd e)) (events (tDocument doc)).
Proof. apply (reported_tag _ 3); [kk|qt]. Qed.
Lemma q_unused doc s : reported is_unused (validate doc s) = flat_map (fun e => leave g_unused (new_context doc s) (fst e) (snd e)) (events (tDocument doc)).
Proof. apply (reported_tag _ 4); [kk|qt]. Qed.
Lemma q_dirs doc s : reported is_directive_err (validate doc s) = flat_map (fun e => enter g_dirs (new_context doc s) (fst e) (snd e)) (events (tDocument doc)).
Proof. apply (reported_tag _ 5); [kk|qt]. Qed.
Lemma q_udirs doc s : reported is_dup_directive (validate doc s) = flat_map (fun e => enter g_udirs (new_context doc s) (fst e) (snd e)) (events (tDocument doc)).
Proof. apply (reported_tag _ 6); [kk|qt]. Qed.
Lemma q_uargs doc s : reported is_dup_arg (validate doc s) = flat_map (fun e => enter g_uargs (new_context doc s) (fst e) (snd e)) (events (tDocument doc)).
Proof. apply (reported_tag _ 7); [kk|qt]. Qed.
Lemma q_uinput doc s : reported is_dup_input (validate doc s) = flat_map (fun e => enter g_uinput (new_context doc s) (fst e) (snd e)) (events (tDocument doc)).
Proof. apply (reported_tag _ 8); [kk|qt]. Qed.
(** and there are no others. *)
Definition query_kinds (e : err) : bool :=
  is_nonexec e || is_anon e || is_unknown_type e || is_unused e || is_directive_err e || is_dup_directive e || is_dup_arg e || is_dup_input e.
Lemma q_kinds doc s : Forall (fun e => query_kinds e = true) (c_errors (validate doc s)).
Proof.
  rewrite validate_errors. apply Forall_rev, Forall_forall. intros e H. apply in_flat_map in H. destruct H as ([ph n] & _ & H). apply in_flat_map in H. destruct H as (x & Hx & H). cbn [fst snd] in H.
  assert (T : exists t, 1 <= t <= 8 /\ tag e = t).
  { cbn [query_rules] in Hx. repeat (destruct Hx as [<-|Hx]); [exists 1|exists 2|exists 3|exists 4|exists 5|exists 6|exists 7|exists 8|destruct Hx]; (split; [lia|]); cbn [rs_g] in H;
      [pose proof (tg_exec (new_context doc s) ph n) as F|pose proof (tg_anon (new_context doc s) ph n) as F|pose proof (tg_types (new_context doc s) ph n) as F|pose proof (tg_unused (new_context doc s) ph n) as F
      |pose proof (tg_dirs (new_context doc s) ph n) as F|pose proof (tg_udirs (new_context doc s) ph n) as F|pose proof (tg_uargs (new_context doc s) ph n) as F|pose proof (tg_uinput (new_context doc s) ph n) as F];
      rewrite Forall_forall in F; exact (F e H). }
  destruct T as (t & Ht & E). destruct e; cbn in E; try reflexivity; lia.
Qed.
Lemma new_doc doc s : c_doc (new_context doc s) = doc. Proof. apply (new_context_same doc s). Qed.
Definition given (s : option schema) : schema := match s with None => empty_schema | Some s => s end.
Lemma new_schema doc s : c_schema (new_context doc s) = given s. Proof. apply (new_context_same doc s). Qed.
Lemma new_sdl doc s : c_sdl (new_context doc s) = None. Proof. apply (new_context_same doc s). Qed.
Lemma new_crash doc s : c_crash (new_context doc s) = false. Proof. apply (new_context_same doc s). Qed.

(** The context after validation: only the errors have changed. *)
Lemma validate_ctx doc s : exists es, validate doc s = set_errors es (new_context doc s).
Proof.
  unfold validate. rewrite <- query_rules_rules. rewrite walk_run. rewrite <- (emit_nil (new_context doc s)). 
  rewrite (walk_emits goodq goodq_set query_rules query_rules_ok _ _ [] (goodq_new doc s)). rewrite Ue_still by exact query_rules_still. rewrite emit_nil. eexists. reflexivity.
Qed.

(** Rule order. *)
Lemma rules_of (rs : list (walker ctx -> walker ctx)) xs : Permutation rs (map rs_rule xs) -> exists ys, rs = map rs_rule ys /\ Permutation ys xs.
Proof. intros H. apply Permutation_map_inv in H. destruct H as (ys & E & P). exists ys. split; [exact E|]. symmetry. exact P. Qed.
Lemma flat_perm {X Y} (f : X -> list Y) l l' : Permutation l l' -> Permutation (flat_map f l) (flat_map f l').
Proof. apply Permutation_flat_map. Qed.
Lemma order_errors rs doc s : Permutation rs Specified ->
  Permutation (c_errors (walk (new_walker rs) doc (new_context doc s))) (c_errors (validate doc s)).
Proof.
  rewrite <- query_rules_rules. intros P. destruct (rules_of _ _ P) as (ys & -> & Py).
  assert (Fo : Forall (rsem_ok goodq) ys) by (eapply Permutation_Forall; [symmetry; exact Py|apply query_rules_ok]).
  assert (Fs : Forall (fun x => rs_u x = still) ys) by (eapply Permutation_Forall; [symmetry; exact Py|apply query_rules_still]).
  rewrite (walk_errors goodq goodq_set ys Fo _ _ (goodq_new doc s)), new_errors, app_nil_r, validate_errors. rewrite Ge_still by exact Fs.
  rewrite <- !Permutation_rev. generalize (events (tDocument doc)) as es. induction es as [|e es IH]; [constructor|]. cbn [flat_map]. apply Permutation_app; [|exact IH].
  apply flat_perm, Py.
Qed.
