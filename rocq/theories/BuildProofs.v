(** * BuildProofs: what BuildSchema computes from the context of SDL validation. *)
From Coq Require Import Permutation.
From Verif Require Import Base AST Walker WalkSpec Context Rules CtxProofs RuleProofs RuleSpec QueryProofs SdlProofs SchemaBuild.

Lemma mget_notin {V} k (m : emap V) : ~ In k (map fst m) -> mget k m = None.
Proof. induction m as [|[a v] m IH]; cbn; intros H; [reflexivity|]. destruct (beqb_spec k a) as [->|]; [tauto|]. apply IH. tauto. Qed.
Lemma mget_In {V} k (v : V) m : mget k m = Some v -> In (k, v) m.
Proof. induction m as [|[a w] m IH]; cbn; [discriminate|]. destruct (beqb_spec k a) as [->|]; [intros E; injection E as ->; auto|auto]. Qed.
Lemma In_mget {V} k (v : V) m : NoDup (map fst m) -> In (k, v) m -> mget k m = Some v.
Proof.
  induction m as [|[a w] m IH]; cbn; intros N H; [destruct H|]. inversion N; subst. destruct H as [E|H].
  - injection E as -> ->. rewrite beqb_refl. reflexivity.
  - destruct (beqb_spec k a) as [->|]; [|auto]. destruct H2. apply (in_map fst) in H. exact H.
Qed.
Lemma mget_perm {V} (m m' : emap V) k : NoDup (map fst m) -> Permutation m m' -> mget k m' = mget k m.
Proof.
  intros N P. assert (N' : NoDup (map fst m')) by (eapply Permutation_NoDup; [apply Permutation_map, P|exact N]).
  destruct (mget k m) as [v|] eqn:E.
  - apply In_mget; [exact N'|]. eapply Permutation_in; [exact P|]. apply mget_In, E.
  - destruct (mget k m') as [v|] eqn:E'; [|reflexivity]. apply mget_In in E'. apply Permutation_sym in P. apply (Permutation_in _ P) in E'. rewrite (In_mget _ _ _ N E') in E. discriminate.
Qed.
Lemma mem_spec {V} k (m : emap V) : mem k m = true <-> exists v, mget k m = Some v.
Proof. unfold mem. destruct (mget k m); split; intros H; eauto; [discriminate|destruct H; discriminate]. Qed.
Lemma mget_add_missing {V} (extra m : emap V) k : NoDup (map fst extra) -> mget k (add_missing extra m) = match mget k m with Some v => Some v | None => mget k extra end.
Proof.
  unfold add_missing. revert m. induction extra as [|[a v] extra IH]; intros m N; cbn [fold_left fst snd]; [destruct (mget k m); reflexivity|]. inversion N; subst. rewrite IH by assumption. clear IH.
  cbn [mget]. destruct (mem a m) eqn:E.
  - apply mem_spec in E. destruct E as (w & E). destruct (mget k m) eqn:Ek; [reflexivity|]. destruct (beqb_spec k a) as [->|]; [congruence|reflexivity].
  - unfold mem in E. rewrite mget_mset. destruct (beqb_spec k a) as [->|]; [|reflexivity]. destruct (mget a m); [discriminate|reflexivity].
Qed.

(** ** Merging the extensions of types *)
Definition lookup (c : ctx) (n : bytes) : option tydef := match c_sdl c with Some s => ctx_type c s n | None => None end.
Definition keeps (c c' : ctx) : Prop :=
  exists s s', c_sdl c = Some s /\ c_sdl c' = Some s' /\ sd_dirs s' = sd_dirs s /\ sd_schema s' = sd_schema s /\ sd_schemaexts s' = sd_schemaexts s /\ sd_extending s' = sd_extending s /\
    sc_def (c_schema c') = sc_def (c_schema c) /\ sc_query (c_schema c') = sc_query (c_schema c) /\ sc_mutation (c_schema c') = sc_mutation (c_schema c) /\ sc_subscription (c_schema c') = sc_subscription (c_schema c) /\
    sc_dirs (c_schema c') = sc_dirs (c_schema c) /\ c_errors c' = c_errors c /\ c_crash c' = c_crash c.
Lemma keeps_trans a b c : keeps a b -> keeps b c -> keeps a c.
Proof.
  intros (s & s' & H1 & H2 & H3 & H4 & H5 & H6 & H7 & H8 & H9 & H10 & H11 & H12 & H13) (t & t' & K1 & K2 & K3 & K4 & K5 & K6 & K7 & K8 & K9 & K10 & K11 & K12 & K13). rewrite K1 in H2. injection H2 as <-.
  exists s, t'. repeat (split; [congruence|]). congruence.
Qed.
Lemma keeps_refl c s : c_sdl c = Some s -> keeps c c. Proof. intros H. exists s, s. intuition. Qed.
Lemma put_spec n t s c : c_sdl c = Some s -> keeps c (put_type n t s c) /\
  (exists s', c_sdl (put_type n t s c) = Some s' /\
    (forall k, mget k (sd_types s') = if negb (sd_extending s && mem n (sc_types (c_schema c))) && beqb k n then Some t else mget k (sd_types s)) /\
    (forall k, mget k (sc_types (c_schema (put_type n t s c))) = if (sd_extending s && mem n (sc_types (c_schema c))) && beqb k n then Some t else mget k (sc_types (c_schema c)))).
Proof.
  intros H. unfold put_type. destruct (sd_extending s && mem n (sc_types (c_schema c))) eqn:E.
  - split; [exists s, s; intuition|]. exists s. split; [exact H|]. split; [intros k; reflexivity|]. intros k. cbn [c_schema set_schema with_sctypes sc_types]. rewrite mget_mset. reflexivity.
  - split; [exists s; eexists; intuition; reflexivity|]. eexists. split; [reflexivity|]. split; [intros k; cbn [sd_types with_types]; rewrite mget_mset; reflexivity|]. reflexivity.
Qed.
Lemma merge_types_spec ord : forall c s, c_sdl c = Some s -> NoDup (map fst ord) -> (forall n xs, In (n, xs) ord -> ctx_type c s n <> None) ->
  let upd n o := match mget n ord with Some xs => option_map (fold_left merge_ext xs) o | None => o end in
  keeps c (merge_types ord c) /\ exists s', c_sdl (merge_types ord c) = Some s' /\
  (forall n, mget n (sd_types s') = if sd_extending s && mem n (sc_types (c_schema c)) then mget n (sd_types s) else upd n (mget n (sd_types s))) /\
  (forall n, mget n (sc_types (c_schema (merge_types ord c))) = if sd_extending s then upd n (mget n (sc_types (c_schema c))) else mget n (sc_types (c_schema c))).
Proof.
  induction ord as [|[n0 xs] ord IH]; intros c s Hs N Hin upd.
  - cbn [merge_types]. split; [eapply keeps_refl, Hs|]. exists s. split; [exact Hs|]. unfold upd. cbn [mget]. split; intros n; destruct (sd_extending s); destruct (mem n (sc_types (c_schema c))); reflexivity.
  - cbn [merge_types]. rewrite Hs. destruct (ctx_type c s n0) as [t|] eqn:Et; [|destruct (Hin n0 xs (or_introl eq_refl) Et)].
    destruct (put_spec n0 (fold_left merge_ext xs t) s c Hs) as (K & s1 & H1 & T1 & T2). inversion N as [|? ? N1 N2]; subst.
    assert (Ext : sd_extending s1 = sd_extending s) by (destruct K as (a & b & A1 & A2 & A3 & A4 & A5 & A6 & _); congruence).
    assert (Mem : forall n, sd_extending s = true -> mem n (sc_types (c_schema (put_type n0 (fold_left merge_ext xs t) s c))) = mem n (sc_types (c_schema c))).
    { intros n Ex. unfold mem at 1. rewrite T2, Ex. cbn [andb]. destruct (mem n0 (sc_types (c_schema c))) eqn:M; cbn [andb]; [|reflexivity]. destruct (beqb_spec n n0) as [->|]; [symmetry; exact M|reflexivity]. }
    destruct (IH (put_type n0 (fold_left merge_ext xs t) s c) s1 H1 N2) as (K' & s' & H' & P1 & P2).
    { intros n ys Hn. specialize (Hin n ys (or_intror Hn)). assert (Hne : n <> n0) by (intros ->; apply N1, (in_map fst _ _ Hn)).
      unfold ctx_type in *. rewrite Ext, T1, T2. replace (beqb n n0) with false by (symmetry; apply beqb_false, Hne). rewrite !andb_false_r. exact Hin. }
    split; [eapply keeps_trans; eassumption|]. exists s'. split; [exact H'|]. unfold upd. cbn [mget].
    assert (U0 : mget n0 ord = None) by (apply mget_notin, N1). split; intros n.
    + rewrite P1, T1. rewrite Ext. unfold ctx_type in Et. destruct (sd_extending s) eqn:Ex; cbn [andb] in *.
      * rewrite Mem by reflexivity. destruct (mem n (sc_types (c_schema c))) eqn:M.
        -- destruct (beqb_spec n n0) as [->|]; [rewrite M; reflexivity|]. rewrite andb_false_r. reflexivity.
        -- destruct (beqb_spec n n0) as [->|]; [|rewrite andb_false_r; reflexivity]. rewrite M. cbn [negb andb]. unfold mem in M. destruct (mget n0 (sc_types (c_schema c))); [discriminate|]. rewrite Et, U0. reflexivity.
      * destruct (beqb_spec n n0) as [->|]; [|reflexivity]. rewrite Et, U0. reflexivity.
    + rewrite P2, T2. rewrite Ext. unfold ctx_type in Et. destruct (sd_extending s) eqn:Ex; cbn [andb] in *; [|reflexivity].
      destruct (beqb_spec n n0) as [->|]; [|rewrite andb_false_r; reflexivity]. rewrite andb_true_r. unfold mem. destruct (mget n0 (sc_types (c_schema c))) as [t0|] eqn:M; [|rewrite U0; reflexivity].
      injection Et as ->. rewrite U0. reflexivity.
Qed.

(** ** The whole of BuildSchema *)
Record after (c c' : ctx) (s : sdl) (ord : emap (list tydef)) : Prop := mkAfter {
  af_errors : c_errors c' = c_errors c; af_crash : c_crash c' = c_crash c;
  af_types : forall n, mget n (sc_types (c_schema c')) =
    let new := match mget n ord with Some xs => option_map (fold_left merge_ext xs) (mget n (sd_types s)) | None => mget n (sd_types s) end in
    if sd_extending s then (if mem n (sc_types (c_schema c)) then mget n (sd_types s) else new) else match new with Some t => Some t | None => mget n specified_types end;
  af_dirs : forall n, mget n (sc_dirs (c_schema c')) = if sd_extending s then mget n (sd_dirs s) else match mget n (sd_dirs s) with Some d => Some d | None => mget n specified_directives end;
  af_def : let d := match sd_schema s with Some d => fold_left (fun d x => mkSd (joined (s_dirs d) (s_dirs x)) (joined (s_ops d) (s_ops x))) (sd_schemaexts s) d | None => default_schema end in
    let sch := fold_left set_root (s_ops d) (c_schema c) in
    sc_def (c_schema c') = Some d /\ sc_query (c_schema c') = sc_query sch /\ sc_mutation (c_schema c') = sc_mutation sch /\ sc_subscription (c_schema c') = sc_subscription sch }.
Lemma nodup_dirs : NoDup (map fst specified_directives).
Proof. cbn. repeat constructor; cbn; intuition discriminate. Qed.
Lemma nodup_types : NoDup (map fst specified_types).
Proof. cbn. repeat constructor; cbn; intuition discriminate. Qed.
Lemma set_root_types sch o : sc_types (set_root sch o) = sc_types sch /\ sc_dirs (set_root sch o) = sc_dirs sch.
Proof. unfold set_root. destruct (ot_op o); split; reflexivity. Qed.
Lemma set_roots_types l : forall sch, sc_types (fold_left set_root l sch) = sc_types sch /\ sc_dirs (fold_left set_root l sch) = sc_dirs sch.
Proof. induction l as [|o l IH]; intros sch; cbn [fold_left]; [auto|]. destruct (IH (set_root sch o)) as [A1 A2]. destruct (set_root_types sch o) as [B1 B2]. split; congruence. Qed.
Lemma set_roots_cong l : forall a b, sc_query a = sc_query b -> sc_mutation a = sc_mutation b -> sc_subscription a = sc_subscription b ->
  sc_query (fold_left set_root l a) = sc_query (fold_left set_root l b) /\ sc_mutation (fold_left set_root l a) = sc_mutation (fold_left set_root l b) /\ sc_subscription (fold_left set_root l a) = sc_subscription (fold_left set_root l b).
Proof. induction l as [|o l IH]; intros a b H1 H2 H3; cbn [fold_left]; [auto|]. apply IH; unfold set_root; destruct (ot_op o); cbn; congruence. Qed.
Lemma build_after c s ord : c_sdl c = Some s -> NoDup (map fst ord) -> (forall n xs, In (n, xs) ord -> ctx_type c s n <> None) -> after c (build_schema ord c) s ord.
Proof.
  intros Hs N Hin. unfold build_schema.
  set (d := match sd_schema s with Some d => Some (fold_left (fun d x => mkSd (joined (s_dirs d) (s_dirs x)) (joined (s_ops d) (s_ops x))) (sd_schemaexts s) d) | None => None end).
  assert (Em : exists s1, c_sdl (merge_schema c) = Some s1 /\ sd_schema s1 = d /\ sd_types s1 = sd_types s /\ sd_dirs s1 = sd_dirs s /\ sd_extending s1 = sd_extending s /\ c_schema (merge_schema c) = c_schema c /\
    c_errors (merge_schema c) = c_errors c /\ c_crash (merge_schema c) = c_crash c).
  { unfold merge_schema. rewrite Hs. unfold d. destruct (sd_schema s) as [d0|] eqn:E; eexists; (split; [first [reflexivity|exact Hs]|]); repeat split; try reflexivity. exact E. }
  destruct Em as (s1 & M1 & M2 & M3 & M4 & M5 & M6 & M7 & M8).
  destruct (merge_types_spec ord (merge_schema c) s1 M1 N) as ((a & b & A1 & A2 & A3 & A4 & A5 & A6 & A7 & A8 & A9 & A10 & A11 & A12 & A13) & s2 & B1 & B2 & B3).
  { intros n xs Hn. specialize (Hin n xs Hn). unfold ctx_type in *. rewrite M3, M5, M6. exact Hin. }
  rewrite B1 in A2. injection A2 as <-. rewrite M1 in A1. injection A1 as <-. set (c2 := merge_types ord (merge_schema c)) in *.
  set (d' := match sd_schema s2 with Some d => d | None => default_schema end).
  assert (Ed : d' = match sd_schema s with Some d => fold_left (fun d x => mkSd (joined (s_dirs d) (s_dirs x)) (joined (s_ops d) (s_ops x))) (sd_schemaexts s) d | None => default_schema end).
  { unfold d'. rewrite A4, M2. unfold d. destruct (sd_schema s); reflexivity. }
  assert (D1 : c_sdl (build_definition c2) = Some s2) by (unfold build_definition; rewrite B1; exact B1).
  assert (Ex : sd_extending s2 = sd_extending s) by congruence.
  destruct (set_roots_types (s_ops d') (c_schema c2)) as [R1 R2].
  destruct (set_roots_cong (s_ops d') (c_schema c2) (c_schema c)) as (Q1 & Q2 & Q3); [congruence|congruence|congruence|].
  assert (F : exists c3, build_directives (build_definition c2) = c3 /\ exists s3, c_sdl c3 = Some s3 /\ sd_extending s3 = sd_extending s /\ sd_types s3 = sd_types s2 /\ c_errors c3 = c_errors c /\ c_crash c3 = c_crash c /\
    sc_def (c_schema c3) = Some d' /\ sc_query (c_schema c3) = sc_query (fold_left set_root (s_ops d') (c_schema c)) /\ sc_mutation (c_schema c3) = sc_mutation (fold_left set_root (s_ops d') (c_schema c)) /\
    sc_subscription (c_schema c3) = sc_subscription (fold_left set_root (s_ops d') (c_schema c)) /\
    forall n, mget n (sc_dirs (c_schema c3)) = if sd_extending s then mget n (sd_dirs s) else match mget n (sd_dirs s) with Some d => Some d | None => mget n specified_directives end).
  { eexists. split; [reflexivity|]. unfold build_directives. rewrite D1, Ex. destruct (sd_extending s) eqn:E.
    - exists s2. split; [exact D1|]. split; [congruence|]. split; [reflexivity|]. unfold build_definition. rewrite B1. cbn [c_schema set_schema with_scdirs sc_def sc_query sc_mutation sc_subscription c_errors c_crash sc_dirs]. fold d'.
      split; [congruence|]. split; [congruence|]. split; [reflexivity|]. split; [exact Q1|]. split; [exact Q2|]. split; [exact Q3|]. intros n. congruence.
    - eexists. split; [reflexivity|]. split; [cbn; congruence|]. split; [reflexivity|]. unfold build_definition. rewrite B1. cbn [c_schema set_schema set_sdl with_scdirs sc_def sc_query sc_mutation sc_subscription c_errors c_crash sc_dirs]. fold d'.
      split; [congruence|]. split; [congruence|]. split; [reflexivity|]. split; [exact Q1|]. split; [exact Q2|]. split; [exact Q3|]. intros n. rewrite mget_add_missing by exact nodup_dirs. rewrite A3, M4. reflexivity. }
  destruct F as (c3 & -> & s3 & F1 & F2 & F3 & F4 & F5 & F6 & F7 & F8 & F9 & F10).
  assert (Tn : forall n, mget n (sd_types s2) = if sd_extending s && mem n (sc_types (c_schema c)) then mget n (sd_types s) else match mget n ord with Some xs => option_map (fold_left merge_ext xs) (mget n (sd_types s)) | None => mget n (sd_types s) end).
  { intros n. rewrite B2, M3, M5, M6. reflexivity. }
  unfold build_types. rewrite F1, F2. destruct (sd_extending s) eqn:E.
  - constructor; cbn [c_errors c_crash c_schema set_schema with_sctypes sc_types sc_dirs sc_def sc_query sc_mutation sc_subscription]; auto; [|intros n; rewrite F10, E; reflexivity|cbv zeta; rewrite <- Ed; auto].
    intros n. rewrite F3, Tn, E. cbn [andb]. destruct (mem n (sc_types (c_schema c))); reflexivity.
  - constructor; cbn [c_errors c_crash c_schema set_schema set_sdl with_sctypes sc_types sc_dirs sc_def sc_query sc_mutation sc_subscription]; auto; [|intros n; rewrite F10, E; reflexivity|cbv zeta; rewrite <- Ed; auto].
    intros n. rewrite mget_add_missing by exact nodup_types. rewrite F3, Tn, E. reflexivity.
Qed.
