(** * PropConc: C53 — calls that run at the same time. *)
From Verif Require Import Base AST Lexer Parser Walker WalkSpec Context Rules CtxProofs RuleProofs RuleSpec QueryProofs SchemaBuild Utils SchemaValidate PropWalk PropParse PropRules PropBuild SchemaSpec PropSchema Samples Top TopProofs PropTop Concurrent.

(** ** Specification *)
(** What a call does when it runs alone on the schema [s] that its caller has given (nothing if it has given none): Top.v. *)
Definition alone (fok : bytes -> bool) (k : call) (m : nat -> schema) : result :=
  match k with
  | CallDoc i a => RDoc (parse_doc fok i (option_map m a))
  | CallSdl i a h => RSdl (parse_sdl_doc fok (ch_peq h) (ch_fuel h) (ch_ord h) (ch_dirs h) (ch_types h) (ch_impls h) i (option_map m a))
  end.
(** what it leaves in the schema [s] at the address *)
Definition left_behind (fok : bytes -> bool) (k : call) (s : schema) : schema :=
  match k with CallDoc i _ => s | CallSdl i _ h => given_schema_after fok (ch_ord h) i s end.
Definition makes_schema (k : call) : Prop := match k with CallSdl _ _ _ => True | CallDoc _ _ => False end.
(** No ParseSDLDoc is given a schema that another call is given. *)
Definition exclusive (ks : list call) : Prop := forall i j k k' a, i <> j -> nth_error ks i = Some k -> nth_error ks j = Some k' -> makes_schema k -> address k = Some a -> address k' <> Some a.
(** The initial memory: schemas that are allocated are empty. *)
Definition initial (m : memory) : Prop := forall i, m (Fresh i) = empty_schema.

(** ** A call on its own *)
Definition go1 (x : prog * schema) : prog * schema := match fst x with Stop r => x | Step f => let '(s, p) := f (snd x) in (p, s) end.
Fixpoint solo (n : nat) (x : prog * schema) : prog * schema := match n with 0 => x | S n => solo n (go1 x) end.
Lemma solo_add n : forall m x, solo (n + m) x = solo m (solo n x). Proof. induction n as [|n IH]; intros m x; [reflexivity|]. cbn. apply IH. Qed.
Lemma solo_S n x : solo (S n) x = go1 (solo n x). Proof. rewrite <- Nat.add_1_r, solo_add. reflexivity. Qed.
Lemma solo_stop n r s : solo n (Stop r, s) = (Stop r, s). Proof. induction n; cbn; auto. Qed.
Definition ends (x : prog * schema) (r : result) (s : schema) : Prop := exists n, solo n x = (Stop r, s).
Lemma ends_stop r s : ends (Stop r, s) r s. Proof. exists 0. reflexivity. Qed.
Lemma ends_after n x r s : ends (solo n x) r s -> ends x r s. Proof. intros (m & H). exists (n + m). rewrite solo_add. exact H. Qed.
Lemma ends_only x r s n r' s' : ends x r s -> solo n x = (Stop r', s') -> r' = r /\ s' = s.
Proof.
  intros (m & H) E. destruct (Nat.le_ge_cases n m) as [L|L].
  - replace m with (n + (m - n)) in H by lia. rewrite solo_add, E, solo_stop in H. injection H as -> ->. auto.
  - replace n with (m + (n - m)) in E by lia. rewrite solo_add, H, solo_stop in E. injection E as <- <-. auto.
Qed.
Lemma set_schema_same c : set_schema (c_schema c) c = c. Proof. destruct c; reflexivity. Qed.
Definition runs (fs : list (ctx -> ctx)) (c : ctx) : ctx := fold_left (fun c f => f c) fs c.
Lemma solo_run fs : forall c k, solo (List.length fs) (run_all fs c k, c_schema c) = (k (runs fs c), c_schema (runs fs c)).
Proof. induction fs as [|f fs IH]; intros c k; [reflexivity|]. cbn [List.length solo run_all go1 fst snd]. unfold go1. cbn [fst snd]. rewrite set_schema_same. apply IH. Qed.
Lemma ends_run fs c k s r s' : fs <> [] -> ends (k (runs fs (set_schema s c)), c_schema (runs fs (set_schema s c))) r s' -> ends (run_all fs c k, s) r s'.
Proof.
  intros N H. destruct fs as [|f fs]; [congruence|]. apply (ends_after 1). cbn [solo]. unfold go1. cbn [run_all fst snd]. change (runs (f :: fs) (set_schema s c)) with (runs fs (f (set_schema s c))) in H.
  apply (ends_after (List.length fs)). rewrite solo_run. exact H.
Qed.
Fixpoint checked (fs : list (schema -> V)) (s : schema) (es : list err) : go (list err) :=
  match fs with [] => GOk es | f :: fs => match f s es with GOk es => checked fs s es | GPanic => GPanic | GLoop => GLoop end end.
Lemma ends_check fs s k r s' : forall es, ends (k (checked fs s es), s) r s' -> ends (check_all fs es k, s) r s'.
Proof.
  induction fs as [|f fs IH]; intros es H; [exact H|]. apply (ends_after 1). cbn [solo]. unfold go1. cbn [check_all fst snd]. cbn [checked] in H. destruct (f s es); [apply IH, H|exact H|exact H].
Qed.
Lemma checked_schema h s es : checked (checks h) s es = validate_schema (ch_peq h) (ch_fuel h) (ch_dirs h) (ch_types h) (ch_impls h) s es.
Proof.
  unfold checks, validate_schema, vseq. cbn [app checked]. destruct (validate_roots s es) as [es1| |]; try reflexivity. destruct (validate_directives (ch_dirs h) es1) as [es2| |]; try reflexivity.
  revert es2. induction (ch_types h) as [|p l IH]; intros es2; [reflexivity|]. cbn [map checked vfor]. unfold vseq at 1. destruct (validate_type _ _ _ s p es2); auto.
Qed.
Lemma runs_app a b c : runs (a ++ b) c = runs b (runs a c). Proof. apply fold_left_app. Qed.
Lemma runs_walk w d c : runs (actions w d) c = walk w d c.
Proof.
  rewrite walk_run. unfold actions, run_events. generalize (events (tDocument d)) as es. intros es. revert c. induction es as [|[ph n] es IH]; intros c; [reflexivity|]. cbn [flat_map fold_left fst snd]. rewrite runs_app, IH. f_equal.
  unfold step, on. cbn [fst snd]. unfold runs. generalize (w ph (ntype_of n)) as hs. intros hs. revert c. induction hs as [|h hs IHh]; intros c; [reflexivity|]. cbn [map fold_left]. apply IHh.
Qed.
Lemma events_nonempty t : events t <> []. Proof. destruct t; discriminate. Qed.
Lemma ends_run_any fs c k s r s' : (forall c s, k (set_schema s c) = k c) -> ends (k (runs fs (set_schema s c)), c_schema (runs fs (set_schema s c))) r s' -> ends (run_all fs c k, s) r s'.
Proof. intros K H. destruct fs as [|f fs]; [|apply ends_run; [discriminate|exact H]]. cbn in H. rewrite K in H. exact H. Qed.
Lemma runs_prepare ds : forall c, runs (map (fun x c => prepare1 c x) ds) c = fold_left prepare1 ds c.
Proof. induction ds as [|x ds IH]; intros c; [reflexivity|]. cbn [map]. apply IH. Qed.
Lemma prepare1_doc c x : c_doc (prepare1 c x) = c_doc c.
Proof. unfold prepare1. destruct (c_sdl c); [|reflexivity]. destruct (def_body x); cbn; repeat match goal with |- context [if ?b then _ else _] => destruct b | |- context [match ?o with _ => _ end] => destruct o end; reflexivity. Qed.
Lemma prepare_doc ds : forall c, c_doc (fold_left prepare1 ds c) = c_doc c.
Proof. induction ds as [|x ds IH]; intros c; [reflexivity|]. cbn [fold_left]. rewrite IH. apply prepare1_doc. Qed.
Definition given_ctx (k : call) (s : schema) : option schema := match address k with Some _ => Some s | None => None end.
Lemma doc_ends fok i a s : (a = None -> s = empty_schema) -> ends (program fok (CallDoc i a), s) (RDoc (parse_doc fok i (given_ctx (CallDoc i a) s))) s.
Proof.
  intros Ha. cbn [program]. unfold doc_prog, parse_doc, given_ctx. cbn [address]. destruct (parse fok i) as [d|m| |]; try apply ends_stop.
  apply ends_run_any; [intros; destruct c; reflexivity|]. rewrite runs_app, !runs_walk. change (set_schema s (blank_ctx d None)) with (mkCtx d [] s None [] [] [] [] None false).
  assert (E : walk (new_walker Specified) d (walk query_context_walker d (mkCtx d [] s None [] [] [] [] None false)) = validate d (match a with Some _ => Some s | None => None end)).
  { unfold validate, new_context. destruct a; [reflexivity|]. rewrite (Ha eq_refl). reflexivity. }
  rewrite E. clear E. assert (G : c_schema (validate d (match a with Some _ => Some s | None => None end)) = s).
  { rewrite (proj1 (proj2 (C43_read_only d _))). destruct a; [reflexivity|]. rewrite (Ha eq_refl). reflexivity. }
  rewrite G. clear G. destruct (validate d _) as [? es ? ? ? ? ? ? ? cr]. cbn [c_crash c_errors]. apply ends_stop.
Qed.
Lemma sdl_ends fok i a h s : (a = None -> s = empty_schema) -> let k := CallSdl i a h in
  exists s', ends (program fok k, s) (RSdl (parse_sdl_doc fok (ch_peq h) (ch_fuel h) (ch_ord h) (ch_dirs h) (ch_types h) (ch_impls h) i (given_ctx k s))) s' /\
  (a <> None -> s' = given_schema_after fok (ch_ord h) i s).
Proof.
  intros Ha k. subst k. cbn [program]. unfold sdl_prog, parse_sdl_doc, given_schema_after, given_ctx. cbn [address]. destruct (parse fok i) as [d|m| |]; try (exists s; split; [apply ends_stop|reflexivity]).
  set (g := match a with Some _ => true | None => false end). set (o := match a with Some _ => Some s | None => None end).
  assert (E : runs (map (fun x c => prepare1 c x) (doc_defs d) ++ [fun c => set_doc (name_document (c_doc c)) c] ++ actions (new_walker SpecifiedSDL) (name_document d)) (set_schema s (blank_ctx d (Some (empty_sdl g)))) = validate_sdl d o).
  { rewrite !runs_app, runs_walk, runs_prepare. unfold validate_sdl. cbv zeta. assert (E : runs [fun c => set_doc (name_document (c_doc c)) c] (fold_left prepare1 (doc_defs d) (set_schema s (blank_ctx d (Some (empty_sdl g))))) = new_sdl_context d o).
    { unfold new_sdl_context, prepare, runs. cbn [fold_left c_doc]. rewrite prepare_doc. cbn [blank_ctx set_schema c_doc]. change (set_schema s (blank_ctx d (Some (empty_sdl g)))) with (mkCtx d [] s (Some (empty_sdl g)) [] [] [] [] None false).
      unfold o, g. destruct a; [reflexivity|]. rewrite (Ha eq_refl). reflexivity. }
    rewrite E. reflexivity. }
  assert (G : match a with Some _ => validate_sdl d (Some s) = validate_sdl d o | None => True end) by (unfold o; destruct a; [reflexivity|exact I]).
  set (c1 := validate_sdl d o) in *. clearbody c1.
  assert (X : exists s', ends (if c_crash c1 then Stop (RSdl Panicked) else match c_errors c1 with
               | _ :: _ => Stop (RSdl (Reported (c_errors c1)))
               | [] => run_all [merge_schema; merge_types (ch_ord h); build_definition; build_directives; build_types] c1 (fun c => if c_crash c then Stop (RSdl Panicked) else check_all (checks h) (c_errors c) (fun r =>
                              match r with GPanic => Stop (RSdl Panicked) | GLoop => Stop (RSdl Never) | GOk [] => Step (fun s => (s, Stop (RSdl (Returned s)))) | GOk es => Stop (RSdl (Reported es)) end)) end, c_schema c1)
       (RSdl (if c_crash c1 then Panicked else match c_errors c1 with [] => let c0 := build_schema (ch_ord h) c1 in
           if c_crash c0 then Panicked else match validate_schema (ch_peq h) (ch_fuel h) (ch_dirs h) (ch_types h) (ch_impls h) (c_schema c0) (c_errors c0) with
             | GOk [] => Returned (c_schema c0) | GOk es => Reported es | GPanic => Panicked | GLoop => Never end | _ :: _ => Reported (c_errors c1) end)) s' /\
       s' = (if c_crash c1 then c_schema c1 else match c_errors c1 with [] => c_schema (build_schema (ch_ord h) c1) | _ :: _ => c_schema c1 end)).
  { destruct (c_crash c1); [eexists; split; [apply ends_stop|reflexivity]|]. destruct (c_errors c1); [|eexists; split; [apply ends_stop|reflexivity]]. eexists. split; [|reflexivity].
    apply ends_run; [discriminate|]. rewrite set_schema_same. change (runs _ c1) with (build_schema (ch_ord h) c1). cbv zeta. destruct (c_crash (build_schema (ch_ord h) c1)); [apply ends_stop|]. apply ends_check. rewrite checked_schema.
    destruct (validate_schema _ _ _ _ _ _ _) as [[|e es]| |]; try apply ends_stop. apply (ends_after 1). apply ends_stop. }
  destruct X as (s' & X & Es'). exists s'. split.
  - apply ends_run; [destruct (map _ _); discriminate|]. rewrite E. exact X.
  - intros Na. destruct a; [|congruence]. rewrite G. exact Es'.
Qed.

(** ** ParseDoc only reads *)
Inductive reads : prog -> Prop := rd_stop r : reads (Stop r) | rd_step f : (forall s, fst (f s) = s /\ reads (snd (f s))) -> reads (Step f).
Definition keeps (w : walker ctx) : Prop := forall ph t h c n, In h (w ph t) -> c_schema (h c n) = c_schema c.
Lemma keeps_add ph t h w : keeps w -> (forall c n, c_schema (h c n) = c_schema c) -> keeps (add_handler ph t h w).
Proof.
  intros K H ph' t' h' c n Hi. unfold add_handler in Hi. destruct (phase_eq_dec ph ph'); [destruct (ntype_eq_dec t t')|]; try (eapply K; exact Hi).
  apply in_app_iff in Hi. destruct Hi as [Hi|[<-|[]]]; [eapply K; exact Hi|apply H].
Qed.
Lemma keeps_each {X} (f : X -> ctx -> ctx) l : (forall x c, c_schema (f x c) = c_schema c) -> forall c, c_schema (each f l c) = c_schema c.
Proof. intros H. unfold each. induction l as [|x l IH]; intros c; [reflexivity|]. cbn [fold_left]. rewrite IH. apply H. Qed.
Lemma keeps_unique mk l c : c_schema (unique_loop mk l c) = c_schema c.
Proof.
  unfold unique_loop. assert (G : forall l st, c_schema (snd (fold_left (fun st n => if inb n (fst st) then (fst st, add_error (mk n) (snd st)) else (n :: fst st, snd st)) l st)) = c_schema (snd st)).
  { clear. induction l as [|n l IH]; intros st; [reflexivity|]. cbn [fold_left]. rewrite IH. destruct (inb n (fst st)); reflexivity. }
  apply (G l ([], c)).
Qed.
Ltac keep := intros; repeat first [reflexivity | apply keeps_unique | apply keeps_each; intros | match goal with |- context [match ?x with _ => _ end] => destruct x end].
Lemma keeps_query : keeps query_context_walker.
Proof. unfold query_context_walker, new_walker. cbn [fold_left]. unfold setFragments, setExecutableDefinition, setReferencedFragments, setVariableUsages. repeat (apply keeps_add; [|keep]). intros ph t h c n []. Qed.
Lemma keeps_rules : keeps (new_walker Specified).
Proof.
  unfold Specified, new_walker. cbn [fold_left].
  unfold ExecutableDefinitions, LoneAnonymousOperation, KnownTypeNames, NoUnusedVariables, KnownDirectives, UniqueDirectivesPerLocation, UniqueArgumentNames, UniqueInputFieldNames.
  repeat (apply keeps_add; [|keep]). intros ph t h c n [].
Qed.
Lemma keeps_actions w d : keeps w -> Forall (fun f : ctx -> ctx => forall c, c_schema (f c) = c_schema c) (actions w d).
Proof. intros K. apply Forall_forall. intros f Hf c. apply in_flat_map in Hf. destruct Hf as (e & _ & Hf). apply in_map_iff in Hf. destruct Hf as (h & <- & Hh). eapply K. exact Hh. Qed.
Lemma reads_run fs k : (forall c, reads (k c)) -> Forall (fun f : ctx -> ctx => forall c, c_schema (f c) = c_schema c) fs -> forall c, reads (run_all fs c k).
Proof. intros K F. induction F as [|f fs Hf F IH]; intros c; [apply K|]. cbn [run_all]. constructor. intros s. cbn [fst snd]. rewrite Hf. split; [reflexivity|apply IH]. Qed.
Lemma reads_doc fok i : reads (doc_prog fok i).
Proof.
  unfold doc_prog. destruct (parse fok i); try constructor. apply reads_run; [constructor|]. apply Forall_app. split; apply keeps_actions; [apply keeps_query|apply keeps_rules].
Qed.
Lemma reads_go x : reads (fst x) -> reads (fst (go1 x)) /\ snd (go1 x) = snd x.
Proof. destruct x as [p s]. unfold go1. cbn [fst snd]. intros H. destruct H as [r|f H]; [split; [constructor|reflexivity]|]. destruct (H s) as [E R]. destruct (f s) as [s' p']. cbn [fst snd] in *. auto. Qed.
Lemma reads_solo n : forall x, reads (fst x) -> reads (fst (solo n x)) /\ snd (solo n x) = snd x.
Proof. induction n as [|n IH]; intros x H; [auto|]. cbn [solo]. destruct (reads_go x H) as [R E]. destruct (IH _ R) as [R' E']. split; [exact R'|congruence]. Qed.

(** ** Schedules *)
Definition count (i : nat) (l : list nat) : nat := count_occ Nat.eq_dec l i.
Lemma put_same {X} (l : list X) i x y : nth_error l i = Some y -> nth_error (put l i x) i = Some x.
Proof. revert l. induction i as [|i IH]; intros [|z l] H; try discriminate; [reflexivity|]. cbn in *. apply IH, H. Qed.
Lemma put_other {X} (l : list X) i j x : i <> j -> nth_error (put l i x) j = nth_error l j.
Proof. revert l j. induction i as [|i IH]; intros [|z l] [|j] H; try reflexivity; try congruence. cbn. apply IH. congruence. Qed.
(** After a schedule, each call is where it would be alone after as many steps. *)
Definition where_alone (fok : bytes -> bool) (ks : list call) (m0 : memory) (sched : list nat) (c : memory * list prog) : Prop :=
  (forall i k, nth_error ks i = Some k -> exists p, nth_error (snd c) i = Some p /\ (p, fst c (place i k)) = solo (count i sched) (program fok k, m0 (place i k))) /\
  (forall l, (forall i k, nth_error ks i = Some k -> makes_schema k -> place i k <> l) -> fst c l = m0 l).
Lemma place_clash ks i j k k' : exclusive ks -> i <> j -> nth_error ks i = Some k -> nth_error ks j = Some k' -> makes_schema k -> place i k <> place j k'.
Proof.
  intros X N E E' M. unfold place. pose proof (X i j k k') as Y. destruct (address k) as [a|] eqn:A, (address k') as [a'|] eqn:A'; try discriminate.
  - intros H. injection H as ->. apply (Y a' N E E' M eq_refl). reflexivity.
  - intros H. injection H as ->. congruence.
Qed.
Lemma execute_alone fok ks m0 : exclusive ks -> forall sched, where_alone fok ks m0 sched (execute fok ks m0 sched).
Proof.
  intros X sched. unfold execute. induction sched as [|j sched IH] using rev_ind.
  - split; [|reflexivity]. intros i k E. exists (program fok k). split; [cbn [snd]; apply map_nth_error, E|reflexivity].
  - rewrite fold_left_app. cbn [fold_left]. destruct IH as [IH Im]. set (c := fold_left (turn ks) sched (m0, map (program fok) ks)) in *. clearbody c.
    assert (Ce : forall i, count i (sched ++ [j]) = if Nat.eq_dec j i then S (count i sched) else count i sched).
    { intros i. unfold count. rewrite count_occ_app. cbn. destruct (Nat.eq_dec j i); lia. }
    unfold turn. destruct (nth_error ks j) as [kj|] eqn:Ej.
    2:{ split; [|exact Im]. intros i k E. rewrite Ce. destruct (Nat.eq_dec j i) as [->|N]; [congruence|]. apply IH, E. }
    destruct (IH j kj Ej) as (pj & Pj & Sj). rewrite Pj. destruct pj as [r|f].
    { split; [|exact Im]. intros i k E. rewrite Ce. destruct (Nat.eq_dec j i) as [->|N]; [|apply IH, E]. rewrite Ej in E. injection E as <-. exists (Stop r). split; [exact Pj|]. rewrite solo_S, <- Sj. reflexivity. }
    destruct (f (fst c (place j kj))) as [s p] eqn:Ef. cbn [fst snd].
    assert (Sn : solo (S (count j sched)) (program fok kj, m0 (place j kj)) = (p, s)) by (rewrite solo_S, <- Sj; unfold go1; cbn [fst snd]; rewrite Ef; reflexivity).
    assert (Rd : ~ makes_schema kj -> s = fst c (place j kj)).
    { intros Nm. destruct kj as [i' a|]; [|exfalso; apply Nm; exact I]. pose proof (reads_solo (S (count j sched)) (program fok (CallDoc i' a), m0 (place j (CallDoc i' a))) (reads_doc fok i')) as [_ R1].
      pose proof (reads_solo (count j sched) (program fok (CallDoc i' a), m0 (place j (CallDoc i' a))) (reads_doc fok i')) as [_ R2]. rewrite Sn in R1. rewrite <- Sj in R2. cbn [fst snd] in *. congruence. }
    assert (Md : {makes_schema kj} + {~ makes_schema kj}) by (destruct kj; [right; intros []|left; exact I]).
    split.
    + intros i k E. rewrite Ce. destruct (Nat.eq_dec j i) as [->|N].
      * rewrite Ej in E. injection E as <-. exists p. split; [apply (put_same _ _ _ _ Pj)|]. cbn [fst]. unfold store. destruct (loc_dec (place i kj) (place i kj)); [|congruence]. symmetry. exact Sn.
      * destruct (IH i k E) as (q & Pq & Sq). exists q. split; [cbn [snd]; rewrite put_other by exact N; exact Pq|]. rewrite <- Sq. cbn [fst]. unfold store. destruct (loc_dec (place i k) (place j kj)) as [El|]; [|reflexivity].
        destruct Md as [M|M]; [exfalso; apply (place_clash ks j i kj k X N Ej E M); congruence|]. rewrite (Rd M), <- El. reflexivity.
    + intros l Hl. cbn [fst]. unfold store. destruct (loc_dec l (place j kj)) as [->|]; [|apply Im, Hl]. destruct Md as [M|M]; [exfalso; apply (Hl j kj Ej M eq_refl)|]. rewrite (Rd M). apply Im, Hl.
Qed.
Lemma call_ends fok i k (m : memory) : initial m -> exists s', ends (program fok k, m (place i k)) (alone fok k (fun a => m (Given a))) s' /\ (address k <> None -> s' = left_behind fok k (m (place i k))).
Proof.
  intros Hi. destruct k as [inp a|inp a h].
  - exists (m (place i (CallDoc inp a))). split; [|reflexivity]. assert (E : alone fok (CallDoc inp a) (fun a => m (Given a)) = RDoc (parse_doc fok inp (given_ctx (CallDoc inp a) (m (place i (CallDoc inp a)))))) by (unfold given_ctx, place; cbn [address alone]; destruct a; reflexivity).
    rewrite E. apply doc_ends. intros ->. apply Hi.
  - destruct (sdl_ends fok inp a h (m (place i (CallSdl inp a h)))) as (s' & H & L). { intros ->. apply Hi. }
    exists s'. split; [|exact L]. assert (E : given_ctx (CallSdl inp a h) (m (place i (CallSdl inp a h))) = option_map (fun a => m (Given a)) a) by (unfold given_ctx, place; cbn [address]; destruct a; reflexivity).
    rewrite E in H. exact H.
Qed.

(** ** The theorems *)
(** However their steps are interleaved, calls of which no ParseSDLDoc shares its schema end as they would alone, and each one ends
    once it has had enough turns.  Any number of ParseDoc may share a schema. *)
Theorem C53_as_if_alone : forall fok ks m, exclusive ks -> initial m -> forall i k, nth_error ks i = Some k ->
  (forall sched r, ended (execute fok ks m sched) i r -> r = alone fok k (fun a => m (Given a))) /\
  (exists n, forall sched, n <= count_occ Nat.eq_dec sched i -> ended (execute fok ks m sched) i (alone fok k (fun a => m (Given a)))).
Proof.
  intros fok ks m X I i k E. destruct (call_ends fok i k m I) as (s' & H & _). split.
  - intros sched r Hr. destruct (execute_alone fok ks m X sched) as [W _]. destruct (W i k E) as (p & Pp & Sp). unfold ended in Hr. rewrite Hr in Pp. injection Pp as <-. symmetry in Sp. apply (ends_only _ _ _ _ _ _ H Sp).
  - destruct H as (n & H). exists n. intros sched L. destruct (execute_alone fok ks m X sched) as [W _]. destruct (W i k E) as (p & Pp & Sp). unfold ended. rewrite Pp. f_equal.
    unfold count in Sp. replace (count_occ Nat.eq_dec sched i) with (n + (count_occ Nat.eq_dec sched i - n)) in Sp by lia. rewrite solo_add, H, solo_stop in Sp. injection Sp as -> _. reflexivity.
Qed.
Print Assumptions C53_as_if_alone.
(** The schemas that were not given to a ParseSDLDoc are as they were, at every moment; one that was is, when the call has ended,
    what the call alone makes of it (C48). *)
Theorem C53_schemas : forall fok ks m, exclusive ks -> initial m -> forall sched a,
  ((forall i k, nth_error ks i = Some k -> makes_schema k -> address k <> Some a) -> fst (execute fok ks m sched) (Given a) = m (Given a)) /\
  (forall i k r, nth_error ks i = Some k -> address k = Some a -> ended (execute fok ks m sched) i r -> fst (execute fok ks m sched) (Given a) = left_behind fok k (m (Given a))).
Proof.
  intros fok ks m X I sched a. destruct (execute_alone fok ks m X sched) as [W U]. split.
  - intros H. apply U. intros i k E M. unfold place. destruct (address k) as [b|] eqn:A; [|discriminate]. intros Y. injection Y as ->. apply (H i k E M A).
  - intros i k r E A Hr. destruct (W i k E) as (p & Pp & Sp). unfold ended in Hr. rewrite Hr in Pp. injection Pp as <-. destruct (call_ends fok i k m I) as (s' & H & L). symmetry in Sp.
    assert (Pl : place i k = Given a) by (unfold place; rewrite A; reflexivity). rewrite Pl in *. destruct (ends_only _ _ _ _ _ _ H Sp) as [_ E']. rewrite E'. apply L. congruence.
Qed.
Print Assumptions C53_schemas.

(** ** The condition is needed *)
Definition results (c : memory * list prog) : list (option result) := map (fun p => match p with Stop r => Some r | Step _ => None end) (snd c).
Definition verdict (r : option result) : option (option (list bytes)) :=
  match r with
  | Some (RDoc (Returned _)) | Some (RSdl (Returned _)) => Some None
  | Some (RDoc (Reported es)) | Some (RSdl (Reported es)) => Some (Some (map message es))
  | _ => None
  end.
Definition all_empty : memory := fun _ => empty_schema.
Definition any_choices : choices :=
  let b := built (src "type Query{q:Query}") (Some empty_schema) [] in mkCh noptr 9 [] (sc_dirs b) (sc_types b) (sc_types b).
Definition makes : call := CallSdl (B "type Query{q:Query}") (Some 0) any_choices.
Definition asks : call := CallDoc (B "query($a:Query $b:Query){f(a:$a b:$b)}") (Some 0).
Definition after_each_other (i j : nat) : list nat := repeat i 200 ++ repeat j 200.
Definition taking_turns (n : nat) : list nat := List.concat (repeat [0; 1] n).
(** Two calls that make the same schema (here an empty one): one after the other, the second finds the type that the first has
    made; at the same time, both succeed.  A query that is validated while the schema is made can see the schema half-made: one
    after the other, both its variables' types are known or both are not. *)
Theorem C53_sharing_refuted :
  (map verdict (results (execute anyfloat [makes; makes] all_empty (after_each_other 0 1))) = [Some None; Some (Some [B "Type Query already exists in the schema. It cannot also be defined in this type definition."])] /\
   map verdict (results (execute anyfloat [makes; makes] all_empty (after_each_other 1 0))) = [Some (Some [B "Type Query already exists in the schema. It cannot also be defined in this type definition."]); Some None] /\
   exists sched, map verdict (results (execute anyfloat [makes; makes] all_empty sched)) = [Some None; Some None]) /\
  (map verdict (results (execute anyfloat [makes; asks] all_empty (after_each_other 0 1))) = [Some None; Some None] /\
   map verdict (results (execute anyfloat [makes; asks] all_empty (after_each_other 1 0))) = [Some None; Some (Some [B "Unknown type ""Query""."; B "Unknown type ""Query""."])] /\
   exists sched, map verdict (results (execute anyfloat [makes; asks] all_empty sched)) = [Some None; Some (Some [B "Unknown type ""Query""."])]).
Proof.
  split.
  - split; [vm_compute; reflexivity|]. split; [vm_compute; reflexivity|]. exists (taking_turns 200). vm_compute. reflexivity.
  - split; [vm_compute; reflexivity|]. split; [vm_compute; reflexivity|]. exists (repeat 1 6 ++ repeat 0 200 ++ repeat 1 200). vm_compute. reflexivity.
Qed.
Print Assumptions C53_sharing_refuted.
(** The theorem applies: two queries share a schema, a third call makes a schema of its own from another one, a fourth from none;
    they take turns and end as alone. *)
Definition good_choices : choices :=
  let b := built (src "type Query{q:ID}") None [] in mkCh noptr 9 [] (dedup (sc_dirs b)) (dedup (sc_types b)) (dedup (sc_types b)).
Definition four : list call := [asks; asks; CallSdl (B "type Query{q:Query}") (Some 1) any_choices; CallSdl (B "type Query{q:ID}") None good_choices].
Example C53_nonvacuous : exclusive four /\ initial all_empty /\
  map verdict (results (execute anyfloat four all_empty (List.concat (repeat [0; 3; 2; 1] 100)))) = [Some (Some [B "Unknown type ""Query""."; B "Unknown type ""Query""."]); Some (Some [B "Unknown type ""Query""."; B "Unknown type ""Query""."]); Some None; Some None].
Proof.
  split; [|split; [intros i; reflexivity|vm_compute; reflexivity]]. unfold four.
  intros i j k k' a N E E' M A. destruct i as [|[|[|[|i]]]]; cbn [nth_error] in E; try (injection E as <-; try (destruct M; fail); try discriminate A); [|destruct i; discriminate].
  cbn [address] in A. injection A as <-. destruct j as [|[|[|[|j]]]]; cbn [nth_error] in E'; try congruence; try (injection E' as <-; cbn [address asks]; discriminate). destruct j; discriminate.
Qed.
