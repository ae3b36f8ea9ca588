(** * SdlProofs: what PrepareContextSDL computes, and the errors of SDL validation, kind by kind. *)
From Verif Require Import Base AST Walker WalkSpec Context Rules CtxProofs RuleProofs RuleSpec QueryProofs.

(** ** Maps *)
Lemma mget_mset {V} k k' (v : V) m : mget k (mset k' v m) = if beqb k k' then Some v else mget k m.
Proof.
  induction m as [|[a l] m IH]; cbn; [reflexivity|]. destruct (beqb_spec k' a) as [->|Hn].
  - cbn. destruct (beqb_spec k a); reflexivity.
  - cbn. rewrite IH. destruct (beqb_spec k a) as [->|]; [|reflexivity]. destruct (beqb_spec a k'); congruence.
Qed.
Lemma mem_mget {V} k (m : emap V) : mem k m = match mget k m with Some _ => true | None => false end. Proof. reflexivity. Qed.

(** ** The definitions of a document by kind, in order *)
Definition tds (ds : list definition) : list tydef := flat_map (fun d => match def_body d with DType t => [t] | _ => [] end) ds.
Definition dds (ds : list definition) : list dirdef := flat_map (fun d => match def_body d with DDir t => [t] | _ => [] end) ds.
Definition sds (ds : list definition) : list schemadef := flat_map (fun d => match def_body d with DSchema t => [t] | _ => [] end) ds.
Definition xss (ds : list definition) : list schemadef := flat_map (fun d => match def_body d with XSchema t => [t] | _ => [] end) ds.
Definition xts (ds : list definition) : list tydef := flat_map (fun d => match def_body d with XType t => [t] | _ => [] end) ds.
Definition tnames sch ds := filter (fun n => negb (mem n (sc_types sch))) (map t_name (tds ds)).
Definition dnames sch ds := filter (fun n => negb (mem n (sc_dirs sch))) (map dd_name (dds ds)).

(** the first definition of a name not in the schema *)
Definition first_type sch ds (n : bytes) : option tydef := if mem n (sc_types sch) then None else find (fun t => beqb n (t_name t)) (tds ds).
Definition first_dir sch ds (n : bytes) : option dirdef := if mem n (sc_dirs sch) then None else find (fun t => beqb n (dd_name t)) (dds ds).

(** The invariant of the loop, as a function of the definitions already treated. *)
Record prepared (doc : document) (sch : schema) (ext : bool) (ds : list definition) (c : ctx) (s : sdl) : Prop := mkPrep {
  pr_doc : c_doc c = doc; pr_schema : c_schema c = sch; pr_sdl : c_sdl c = Some s; pr_crash : c_crash c = false;
  pr_ext : sd_extending s = ext; pr_flags : sd_query s = false /\ sd_mutation s = false /\ sd_subscription s = false;
  pr_types : forall n, mget n (sd_types s) = first_type sch ds n;
  pr_dirs : forall n, mget n (sd_dirs s) = first_dir sch ds n;
  pr_schemadef : sd_schema s = if ext then None else hd_error (sds ds);
  pr_schemaexts : sd_schemaexts s = xss ds;
  pr_exts : forall n, mget n (sd_exts s) = match filter (fun t => beqb n (t_name t)) (xts ds) with [] => None | l => Some l end;
  pr_types_nodup : NoDup (map fst (sd_types s)); pr_dirs_nodup : NoDup (map fst (sd_dirs s)); pr_exts_nodup : NoDup (map fst (sd_exts s));
  pr_e_type : rev (filter is_dup_type (c_errors c)) = map EDupTypeName (repeats (tnames sch ds));
  pr_e_xtype : rev (filter is_existed_type (c_errors c)) = map EExistedType (filter (fun n => mem n (sc_types sch)) (map t_name (tds ds)));
  pr_e_dir : rev (filter is_dup_dir (c_errors c)) = map EDupDirectiveName (repeats (dnames sch ds));
  pr_e_xdir : rev (filter is_existed_dir (c_errors c)) = map EExistedDirective (filter (fun n => mem n (sc_dirs sch)) (map dd_name (dds ds)));
  pr_e_schema : rev (filter is_schema_err (c_errors c)) = if ext then map (fun _ => ESchemaInExtension) (sds ds) else map (fun _ => ESchemaNotAlone) (tl (sds ds));
  pr_e_kinds : Forall (fun e => is_dup_type e || is_existed_type e || is_dup_dir e || is_existed_dir e || is_schema_err e = true) (c_errors c) }.

Lemma find_app {X} (f : X -> bool) a b : find f (a ++ b) = match find f a with Some x => Some x | None => find f b end.
Proof. induction a as [|x a IH]; [reflexivity|]. cbn. destruct (f x); [reflexivity|exact IH]. Qed.
Lemma find_none_inb n l : find (fun t => beqb n (t_name t)) l = None <-> inb n (map t_name l) = false.
Proof. induction l as [|x l IH]; cbn; [tauto|]. destruct (beqb n (t_name x)); cbn; [split; discriminate|exact IH]. Qed.
Lemma find_none_inb_d n l : find (fun t => beqb n (dd_name t)) l = None <-> inb n (map dd_name l) = false.
Proof. induction l as [|x l IH]; cbn; [tauto|]. destruct (beqb n (dd_name x)); cbn; [split; discriminate|exact IH]. Qed.
Lemma inb_filter n f l : f n = true -> inb n (filter f l) = inb n l.
Proof.
  intros H. destruct (inb n l) eqn:E.
  - apply inb_In in E. apply inb_In. apply filter_In. auto.
  - apply inb_notIn in E. apply inb_notIn. intros X. apply filter_In in X. tauto.
Qed.
Lemma mset_keys {V} k (v : V) m x : In x (map fst (mset k v m)) <-> x = k \/ In x (map fst m).
Proof.
  induction m as [|[a w] m IH]; cbn; [intuition congruence|]. destruct (beqb_spec k a) as [->|Hn]; cbn; [intuition congruence|]. rewrite IH. intuition congruence.
Qed.
Lemma mset_nodup {V} k (v : V) m : NoDup (map fst m) -> NoDup (map fst (mset k v m)).
Proof.
  induction m as [|[a w] m IH]; cbn; intros H; [repeat constructor; intros []|]. inversion H as [|? ? H1 H2]; subst. destruct (beqb_spec k a) as [->|Hn]; cbn; constructor; auto.
  intros X. apply mset_keys in X. destruct X as [->|X]; congruence.
Qed.

Lemma prepare_step doc sch ext ds c s d : prepared doc sch ext ds c s -> exists s', prepared doc sch ext (ds ++ [d]) (prepare1 c d) s'.
Proof.
  intros [H1 H2 H3 H4 H5 H6 H7 H8 H9 H10 H11 N1 N2 N3 E1 E2 E3 E4 E5 E6].
  assert (Tt : tds (ds ++ [d]) = tds ds ++ match def_body d with DType t => [t] | _ => [] end) by (unfold tds; rewrite flat_map_app; cbn; rewrite app_nil_r; reflexivity).
  assert (Td : dds (ds ++ [d]) = dds ds ++ match def_body d with DDir t => [t] | _ => [] end) by (unfold dds; rewrite flat_map_app; cbn; rewrite app_nil_r; reflexivity).
  assert (Ts : sds (ds ++ [d]) = sds ds ++ match def_body d with DSchema t => [t] | _ => [] end) by (unfold sds; rewrite flat_map_app; cbn; rewrite app_nil_r; reflexivity).
  assert (Tx : xss (ds ++ [d]) = xss ds ++ match def_body d with XSchema t => [t] | _ => [] end) by (unfold xss; rewrite flat_map_app; cbn; rewrite app_nil_r; reflexivity).
  assert (Ty : xts (ds ++ [d]) = xts ds ++ match def_body d with XType t => [t] | _ => [] end) by (unfold xts; rewrite flat_map_app; cbn; rewrite app_nil_r; reflexivity).
  unfold prepare1. rewrite H3. destruct (def_body d) as [o|f|x|x|x|x|x] eqn:Eb.
  - (* operation *) exists s. constructor; unfold tnames, dnames, first_type, first_dir; rewrite ?Tt, ?Td, ?Ts, ?Tx, ?Ty, ?app_nil_r; auto.
  - exists s. constructor; unfold tnames, dnames, first_type, first_dir; rewrite ?Tt, ?Td, ?Ts, ?Tx, ?Ty, ?app_nil_r; auto.
  - (* schema *) rewrite H5. destruct ext.
    + exists s. constructor; unfold tnames, dnames, first_type, first_dir; rewrite ?Tt, ?Td, ?Ts, ?Tx, ?Ty, ?app_nil_r; auto; cbn [c_errors add_error set_errors filter is_dup_type is_existed_type is_dup_dir is_existed_dir is_schema_err rev]; auto.
      rewrite E5, map_app. reflexivity.
    + rewrite H9. destruct (sds ds) as [|x0 xs] eqn:Es; cbn [hd_error].
      * exists (with_schema (Some x) s). constructor; unfold tnames, dnames, first_type, first_dir; rewrite ?Tt, ?Td, ?Ts, ?Tx, ?Ty, ?app_nil_r; auto. 
      * exists s. constructor; unfold tnames, dnames, first_type, first_dir; rewrite ?Tt, ?Td, ?Ts, ?Tx, ?Ty, ?app_nil_r; auto; cbn [c_errors add_error set_errors filter is_dup_type is_existed_type is_dup_dir is_existed_dir is_schema_err rev]; auto.
        rewrite E5. cbn [app tl]. rewrite map_app. reflexivity.
  - (* type *) rewrite H2. destruct (mem (t_name x) (sc_types sch)) eqn:Em.
    + exists s. constructor; unfold dnames, first_dir; rewrite ?Td, ?Ts, ?Tx, ?Ty, ?app_nil_r; auto; cbn [c_errors add_error set_errors filter is_dup_type is_existed_type is_dup_dir is_existed_dir is_schema_err rev]; auto.
      * intros n. rewrite H7. unfold first_type. destruct (mem n (sc_types sch)) eqn:En; [reflexivity|]. rewrite Tt, find_app. destruct (find _ (tds ds)); [reflexivity|]. cbn.
        destruct (beqb_spec n (t_name x)) as [->|]; [congruence|reflexivity].
      * unfold tnames. rewrite Tt, map_app, filter_app. cbn. rewrite Em. cbn. rewrite app_nil_r. exact E1.
      * rewrite E2. rewrite Tt, map_app, filter_app. cbn. rewrite Em, map_app. reflexivity.
    + unfold mem. rewrite H7. unfold first_type at 1. rewrite Em. destruct (find (fun t => beqb (t_name x) (t_name t)) (tds ds)) as [t0|] eqn:Ef.
      * exists s. constructor; unfold dnames, first_dir; rewrite ?Td, ?Ts, ?Tx, ?Ty, ?app_nil_r; auto; cbn [c_errors add_error set_errors filter is_dup_type is_existed_type is_dup_dir is_existed_dir is_schema_err rev]; auto.
        -- intros n. rewrite H7. unfold first_type. destruct (mem n (sc_types sch)) eqn:En; [reflexivity|]. rewrite Tt, find_app. destruct (find (fun t => beqb n (t_name t)) (tds ds)) eqn:Ef'; [reflexivity|]. cbn.
           destruct (beqb_spec n (t_name x)) as [->|]; [congruence|reflexivity].
        -- rewrite E1. unfold tnames. rewrite Tt, map_app, filter_app. cbn. rewrite Em. cbn. rewrite repeats_snoc, map_app. f_equal.
           rewrite (inb_filter (t_name x) (fun n => negb (mem n (sc_types sch)))) by (rewrite Em; reflexivity).
           destruct (inb (t_name x) (map t_name (tds ds))) eqn:Ei; [reflexivity|]. apply find_none_inb in Ei. congruence.
        -- rewrite Tt, map_app, filter_app. cbn. rewrite Em, app_nil_r. exact E2.
      * exists (with_types (mset (t_name x) x (sd_types s)) s). constructor; unfold dnames, first_dir; rewrite ?Td, ?Ts, ?Tx, ?Ty, ?app_nil_r; auto; cbn [c_errors set_sdl sd_types with_types].
        -- intros n. rewrite mget_mset, H7. unfold first_type. rewrite Tt, find_app. cbn. destruct (beqb_spec n (t_name x)) as [->|Hn].
           ++ rewrite Em, Ef. reflexivity.
           ++ destruct (mem n (sc_types sch)); [reflexivity|]. destruct (find (fun t => beqb n (t_name t)) (tds ds)); reflexivity.
        -- apply mset_nodup, N1.
        -- rewrite E1. unfold tnames. rewrite Tt, map_app, filter_app. cbn. rewrite Em. cbn. rewrite repeats_snoc.
           rewrite (inb_filter (t_name x) (fun n => negb (mem n (sc_types sch)))) by (rewrite Em; reflexivity).
           apply find_none_inb in Ef. rewrite Ef, app_nil_r. reflexivity.
        -- rewrite Tt, map_app, filter_app. cbn. rewrite Em, app_nil_r. exact E2.
  - (* directive *) rewrite H2. destruct (mem (dd_name x) (sc_dirs sch)) eqn:Em.
    + exists s. constructor; unfold tnames, first_type; rewrite ?Tt, ?Ts, ?Tx, ?Ty, ?app_nil_r; auto; cbn [c_errors add_error set_errors filter is_dup_type is_existed_type is_dup_dir is_existed_dir is_schema_err rev]; auto.
      * intros n. rewrite H8. unfold first_dir. destruct (mem n (sc_dirs sch)) eqn:En; [reflexivity|]. rewrite Td, find_app. destruct (find _ (dds ds)); [reflexivity|]. cbn.
        destruct (beqb_spec n (dd_name x)) as [->|]; [congruence|reflexivity].
      * unfold dnames. rewrite Td, map_app, filter_app. cbn. rewrite Em. cbn. rewrite app_nil_r. exact E3.
      * rewrite E4. rewrite Td, map_app, filter_app. cbn. rewrite Em, map_app. reflexivity.
    + unfold mem. rewrite H8. unfold first_dir at 1. rewrite Em. destruct (find (fun t => beqb (dd_name x) (dd_name t)) (dds ds)) as [t0|] eqn:Ef.
      * exists s. constructor; unfold tnames, first_type; rewrite ?Tt, ?Ts, ?Tx, ?Ty, ?app_nil_r; auto; cbn [c_errors add_error set_errors filter is_dup_type is_existed_type is_dup_dir is_existed_dir is_schema_err rev]; auto.
        -- intros n. rewrite H8. unfold first_dir. destruct (mem n (sc_dirs sch)) eqn:En; [reflexivity|]. rewrite Td, find_app. destruct (find (fun t => beqb n (dd_name t)) (dds ds)) eqn:Ef'; [reflexivity|]. cbn.
           destruct (beqb_spec n (dd_name x)) as [->|]; [congruence|reflexivity].
        -- rewrite E3. unfold dnames. rewrite Td, map_app, filter_app. cbn. rewrite Em. cbn. rewrite repeats_snoc, map_app. f_equal.
           rewrite (inb_filter (dd_name x) (fun n => negb (mem n (sc_dirs sch)))) by (rewrite Em; reflexivity).
           destruct (inb (dd_name x) (map dd_name (dds ds))) eqn:Ei; [reflexivity|]. apply find_none_inb_d in Ei. congruence.
        -- rewrite Td, map_app, filter_app. cbn. rewrite Em, app_nil_r. exact E4.
      * exists (with_dirs (mset (dd_name x) x (sd_dirs s)) s). constructor; unfold tnames, first_type; rewrite ?Tt, ?Ts, ?Tx, ?Ty, ?app_nil_r; auto; cbn [c_errors set_sdl sd_dirs with_dirs].
        -- intros n. rewrite mget_mset, H8. unfold first_dir. rewrite Td, find_app. cbn. destruct (beqb_spec n (dd_name x)) as [->|Hn].
           ++ rewrite Em, Ef. reflexivity.
           ++ destruct (mem n (sc_dirs sch)); [reflexivity|]. destruct (find (fun t => beqb n (dd_name t)) (dds ds)); reflexivity.
        -- apply mset_nodup, N2.
        -- rewrite E3. unfold dnames. rewrite Td, map_app, filter_app. cbn. rewrite Em. cbn. rewrite repeats_snoc.
           rewrite (inb_filter (dd_name x) (fun n => negb (mem n (sc_dirs sch)))) by (rewrite Em; reflexivity).
           apply find_none_inb_d in Ef. rewrite Ef, app_nil_r. reflexivity.
        -- rewrite Td, map_app, filter_app. cbn. rewrite Em, app_nil_r. exact E4.
  - (* schema extension *)
    exists (with_schemaexts (sd_schemaexts s ++ [x]) s). constructor; unfold tnames, dnames, first_type, first_dir; rewrite ?Tt, ?Td, ?Ts, ?Tx, ?Ty, ?app_nil_r; auto.
    cbn. rewrite H10. reflexivity.
  - (* type extension *)
    exists (with_exts (mset (t_name x) (match mget (t_name x) (sd_exts s) with Some l => l | None => [] end ++ [x]) (sd_exts s)) s).
    constructor; unfold tnames, dnames, first_type, first_dir; rewrite ?Tt, ?Td, ?Ts, ?Tx, ?Ty, ?app_nil_r; auto.
    + intros n. cbn [sd_exts with_exts]. rewrite mget_mset, !H11, filter_app. cbn. destruct (beqb_spec n (t_name x)) as [->|Hn].
      * destruct (filter (fun t => beqb (t_name x) (t_name t)) (xts ds)); reflexivity.
      * rewrite app_nil_r. reflexivity.
    + cbn [sd_exts with_exts]. apply mset_nodup, N3.
Qed.
Lemma prepare_spec doc s : exists sd, prepared (name_document doc) (given s) (match s with None => false | Some _ => true end) (doc_defs doc) (new_sdl_context doc s) sd.
Proof.
  unfold new_sdl_context, prepare. cbn [c_doc]. fold (given s).
  assert (G : forall todo dn c sd, prepared doc (given s) (match s with None => false | Some _ => true end) dn c sd ->
    exists sd', prepared doc (given s) (match s with None => false | Some _ => true end) (dn ++ todo) (fold_left prepare1 todo c) sd').
  { induction todo as [|d todo IH]; intros dn c sd H; [exists sd; rewrite app_nil_r; exact H|]. destruct (prepare_step _ _ _ _ _ _ d H) as (sd' & H'). cbn [fold_left].
    destruct (IH _ _ _ H') as (sd2 & H2). exists sd2. rewrite <- app_assoc in H2. exact H2. }
  assert (D : forall c, (exists sd, prepared doc (given s) (match s with None => false | Some _ => true end) (doc_defs doc) c sd) ->
    exists sd, prepared (name_document doc) (given s) (match s with None => false | Some _ => true end) (doc_defs doc) (set_doc (name_document doc) c) sd).
  { intros c (sd & H). exists sd. destruct H. constructor; assumption || reflexivity. }
  apply D. apply (G (doc_defs doc) [] _ (empty_sdl (match s with None => false | Some _ => true end))).
  constructor; try reflexivity; cbn; auto; try constructor.
  - intros n. unfold first_type. cbn. destruct (mem n _); reflexivity.
  - intros n. unfold first_dir. cbn. destruct (mem n _); reflexivity.
  - destruct s; reflexivity.
  - destruct s; reflexivity.
Qed.

(** ** The SDL rules *)
Definition sdl_rules : list rsem :=
  [mkRs UniqueOperationTypes (leave g_optypes) u_optypes; mkRs UniqueDirectivesPerLocation (enter g_udirs) still; mkRs UniqueArgumentNames (enter g_uargs) still;
   mkRs UniqueInputFieldNames (enter g_uinput) still; mkRs KnownArgumentNamesOnDirectives (enter g_kargs) still; mkRs KnownDirectives (enter g_dirs) still;
   mkRs KnownTypeNames (enter g_types) still; mkRs PossibleNames (enter g_names) still; mkRs PossibleTypeExtensions (enter g_ext) still;
   mkRs ProvidedRequiredArgumentsOnDirectives (enter g_required) still].
Lemma sdl_rules_rules : map rs_rule sdl_rules = SpecifiedSDL. Proof. reflexivity. Qed.
Lemma sdl_rules_ok : Forall (rsem_ok goods) sdl_rules.
Proof.
  repeat (apply Forall_cons); [apply sem_UniqueOperationTypes|apply sem_UniqueDirectivesPerLocation|apply sem_UniqueArgumentNames|apply sem_UniqueInputFieldNames|apply sem_KnownArgumentNames|
    apply sem_KnownDirectives|apply sem_KnownTypeNames|apply sem_PossibleNames|apply sem_PossibleTypeExtensions|apply sem_ProvidedRequired|constructor].
Qed.
Lemma goods_set e c : goods c -> goods (set_errors e c). Proof. exact (fun H => H). Qed.
Lemma goods_new doc s : goods (new_sdl_context doc s).
Proof. destruct (prepare_spec doc s) as (sd & H). unfold goods. rewrite (pr_sdl _ _ _ _ _ _ H). discriminate. Qed.

Lemma tg_kargs : tagged 9 (enter g_kargs).
Proof.
  intros c ph n. destruct ph; [|constructor]. destruct n; cbn; try constructor. destruct (c_sdl c); [|constructor]. destruct (ctx_directive c s (d_name d)); [|constructor].
  destruct (d_args d) as [|a r]; [constructor|]. apply Forall_app. split; [destruct (inb _ _); repeat constructor|]. apply Forall_map, Forall_forall. reflexivity.
Qed.
Lemma tg_names : tagged 10 (enter g_names). Proof. intros c ph n. destruct ph; [|constructor]. destruct n; cbn; try constructor; destruct (is_valid_name _); repeat constructor. Qed.
Lemma tg_ext : tagged 11 (enter g_ext).
Proof. intros c ph n. destruct ph; [|constructor]. destruct n; cbn; try constructor. destruct (c_sdl c); [|constructor]. destruct (ctx_type _ _ _); [destruct (tkind_eqb _ _)|]; repeat constructor. Qed.
Lemma tg_required : tagged 12 (enter g_required).
Proof. intros c ph n. destruct ph; [|constructor]. destruct n; cbn; try constructor. destruct (find_directive _ _); [|constructor]. apply tag_flat. intros x. destruct (_ && _); repeat constructor. Qed.
Lemma tg_optypes : tagged 13 (leave g_optypes).
Proof.
  intros c ph n. destruct ph; [constructor|]. destruct n; cbn; try constructor; [apply Forall_map, Forall_forall; reflexivity|]. destruct (c_sdl c) as [sd|]; [|constructor].
  generalize (map ot_op (s_ops s)) as l. intros l. revert sd. induction l as [|o l IH]; intros sd; cbn; [constructor|]. apply Forall_app. split; [|apply IH].
  destruct (schema_op _ _); [repeat constructor|]. destruct (flag o sd); repeat constructor.
Qed.

(** Only the flags of the context change during the walk; no other rule reads them. *)
Lemma mark_all_keep os c : exists s', c_sdl (mark_all os c) = s' /\ mark_all os c = set_sdl s' c /\
  match c_sdl c with
  | None => s' = None
  | Some s => exists s2, s' = Some s2 /\ sd_dirs s2 = sd_dirs s /\ sd_types s2 = sd_types s /\ sd_exts s2 = sd_exts s /\ sd_schema s2 = sd_schema s /\ sd_schemaexts s2 = sd_schemaexts s /\ sd_extending s2 = sd_extending s
  end.
Proof.
  unfold mark_all. destruct (c_sdl c) as [s|] eqn:E.
  - eexists. split; [reflexivity|]. split; [reflexivity|]. eexists. split; [reflexivity|]. clear. revert s. induction os as [|o os IH]; intros s; cbn [fold_left]; [repeat split|].
    destruct (IH (with_flag o s)) as (A1 & A2 & A3 & A4 & A5 & A6). repeat split; assumption.
  - exists None. split; [exact E|]. split; [destruct c; cbn in *; rewrite E; reflexivity|reflexivity].
Qed.
Definition insens (g : ctx -> phase -> node -> list err) : Prop := forall os c ph n, g (mark_all os c) ph n = g c ph n.
Ltac ins := let X := fresh in intros os c ph n; destruct ph; [|reflexivity]; destruct n; try reflexivity;
  destruct (mark_all_keep os c) as (s' & _ & -> & X); cbn.
Lemma i_udirs : insens (enter g_udirs). Proof. intros os c ph n. destruct ph; reflexivity. Qed.
Lemma i_uargs : insens (enter g_uargs). Proof. intros os c ph n. destruct ph; reflexivity. Qed.
Lemma i_uinput : insens (enter g_uinput). Proof. intros os c ph n. destruct ph; reflexivity. Qed.
Lemma i_names : insens (enter g_names). Proof. intros os c ph n. destruct ph; reflexivity. Qed.
Lemma i_types : insens (enter g_types).
Proof.
  ins. destruct t; try reflexivity. unfold known_type. cbn [c_schema c_sdl set_sdl]. destruct (c_sdl c) as [s|]; [|subst; reflexivity]. destruct H as (s2 & -> & _ & -> & _). reflexivity.
Qed.
Lemma fd_mark os c n : find_directive (mark_all os c) n = find_directive c n.
Proof.
  destruct (mark_all_keep os c) as (s' & _ & -> & H). unfold find_directive. cbn [c_schema c_sdl set_sdl]. destruct (c_sdl c) as [s|]; [|subst; reflexivity]. destruct H as (s2 & -> & -> & _). reflexivity.
Qed.
Lemma i_dirs : insens (enter g_dirs). Proof. intros os c ph n. destruct ph; [|reflexivity]. destruct n; try reflexivity. cbn. rewrite fd_mark. reflexivity. Qed.
Lemma i_required : insens (enter g_required). Proof. intros os c ph n. destruct ph; [|reflexivity]. destruct n; try reflexivity. cbn. rewrite fd_mark. reflexivity. Qed.
Lemma i_kargs : insens (enter g_kargs).
Proof.
  ins. destruct (c_sdl c) as [s|]; [|subst; reflexivity]. destruct H as (s2 & -> & A1 & _ & _ & _ & _ & A2). unfold ctx_directive. cbn [c_schema set_sdl]. rewrite A1, A2. reflexivity.
Qed.
Lemma i_ext : insens (enter g_ext).
Proof.
  ins. destruct (c_sdl c) as [s|]; [|subst; reflexivity]. destruct H as (s2 & -> & _ & A1 & _ & _ & _ & A2). unfold ctx_type. cbn [c_schema set_sdl]. rewrite A1, A2. reflexivity.
Qed.
Lemma u_mark c ph n : exists os, u_optypes c ph n = mark_all os c.
Proof.
  assert (Z : c = mark_all [] c) by (unfold mark_all; destruct (c_sdl c) eqn:E; [destruct c; cbn in *; rewrite E; reflexivity|reflexivity]).
  destruct ph; [exists []; exact Z|]. destruct n; try (exists []; exact Z); eexists; reflexivity.
Qed.
Lemma Us_sdl c ph n : Us sdl_rules c ph n = u_optypes c ph n. Proof. reflexivity. Qed.

Lemma ins_u g c ph n ph' n' : insens g -> g (u_optypes c ph n) ph' n' = g c ph' n'.
Proof. intros H. destruct (u_mark c ph n) as (os & ->). apply H. Qed.
Lemma Gs_sdl c ph n : Gs sdl_rules c ph n = leave g_optypes c ph n ++
  (enter g_udirs c ph n ++ enter g_uargs c ph n ++ enter g_uinput c ph n ++ enter g_kargs c ph n ++ enter g_dirs c ph n ++ enter g_types c ph n ++ enter g_names c ph n ++ enter g_ext c ph n ++ enter g_required c ph n).
Proof.
  cbn [sdl_rules Gs rs_g rs_u]. unfold still. rewrite app_nil_r.
  rewrite (ins_u _ c ph n ph n i_udirs), (ins_u _ c ph n ph n i_uargs), (ins_u _ c ph n ph n i_uinput), (ins_u _ c ph n ph n i_kargs), (ins_u _ c ph n ph n i_dirs), (ins_u _ c ph n ph n i_types),
    (ins_u _ c ph n ph n i_names), (ins_u _ c ph n ph n i_ext), (ins_u _ c ph n ph n i_required). reflexivity.
Qed.
Lemma filter_Gs t c ph n : filter (fun e => Nat.eqb (tag e) t) (Gs sdl_rules c ph n) =
  (if Nat.eqb 13 t then leave g_optypes c ph n else []) ++ (if Nat.eqb 6 t then enter g_udirs c ph n else []) ++ (if Nat.eqb 7 t then enter g_uargs c ph n else []) ++
  (if Nat.eqb 8 t then enter g_uinput c ph n else []) ++ (if Nat.eqb 9 t then enter g_kargs c ph n else []) ++ (if Nat.eqb 5 t then enter g_dirs c ph n else []) ++ (if Nat.eqb 3 t then enter g_types c ph n else []) ++
  (if Nat.eqb 10 t then enter g_names c ph n else []) ++ (if Nat.eqb 11 t then enter g_ext c ph n else []) ++ (if Nat.eqb 12 t then enter g_required c ph n else []).
Proof.
  rewrite Gs_sdl, !filter_app.
  rewrite (filter_tag t _ _ _ _ 13 tg_optypes), (filter_tag t _ _ _ _ 6 tg_udirs), (filter_tag t _ _ _ _ 7 tg_uargs), (filter_tag t _ _ _ _ 8 tg_uinput), (filter_tag t _ _ _ _ 9 tg_kargs), (filter_tag t _ _ _ _ 5 tg_dirs),
    (filter_tag t _ _ _ _ 3 tg_types), (filter_tag t _ _ _ _ 10 tg_names), (filter_tag t _ _ _ _ 11 tg_ext), (filter_tag t _ _ _ _ 12 tg_required). reflexivity.
Qed.
Lemma Ge_sdl t g c es : insens g -> (forall c ph n, filter (fun e => Nat.eqb (tag e) t) (Gs sdl_rules c ph n) = g c ph n) ->
  filter (fun e => Nat.eqb (tag e) t) (Ge sdl_rules c es) = flat_map (fun e => g c (fst e) (snd e)) es.
Proof.
  intros Hi Hg. revert c. induction es as [|[ph n] es IH]; intros c; cbn [Ge flat_map]; [reflexivity|]. rewrite filter_app, Hg, IH, Us_sdl. cbn [fst snd]. f_equal. apply flat_ext.
  intros e. apply ins_u, Hi.
Qed.
(** The renaming of operations is not seen by the SDL rules. *)
Definition skim (n : node) : bool := match n with NDocument _ | NDefinitions _ | NDefinition _ _ | NExecutable _ _ | NOperation _ | NOperationKind _ _ => false | _ => true end.
Definition read (e : phase * node) : bool := skim (snd e).
Lemma read_named doc : filter read (events (tDocument (name_document doc))) = filter read (events (tDocument doc)).
Proof.
  unfold tDocument, name_document. cbn [doc_defs]. destruct (doc_defs doc) as [|d0 ds] eqn:E; [reflexivity|]. cbn [map tNonnil events flat_map filter read skim snd]. rewrite !filter_app. f_equal. rewrite !app_nil_r.
  change (name_definition d0 :: map name_definition ds) with (map name_definition (d0 :: ds)). generalize (d0 :: ds) as l. clear. intros l. unfold tDefinitions. cbn [events filter read skim snd]. rewrite !filter_app. f_equal.
  unfold numbered. rewrite map_length. generalize 0. induction l as [|d l IH]; intros s; [reflexivity|]. cbn [List.length seq map combine flat_map]. rewrite !filter_app, IH. f_equal.
  unfold tDefinition. cbn [fst snd events filter read skim flat_map]. rewrite !app_nil_r, !filter_app. f_equal. unfold name_definition. destruct (def_body d) as [o| | | | | |] eqn:E; rewrite ?E; try reflexivity.
  cbn [def_body tBody events filter read skim snd flat_map]. rewrite !app_nil_r, !filter_app. f_equal. unfold tOperation. cbn [events filter read skim snd flat_map]. rewrite !app_nil_r, !filter_app. f_equal.
  cbn [events filter read skim snd]. rewrite !filter_app. f_equal. unfold name_operation. destruct (o_name o); reflexivity.
Qed.
Lemma Ge_read c es : Ge sdl_rules c es = Ge sdl_rules c (filter read es).
Proof.
  revert c. induction es as [|[ph n] es IH]; intros c; [reflexivity|]. cbn [filter]. unfold read at 1. cbn [snd]. destruct (skim n) eqn:E; cbn [Ge]; [rewrite IH; reflexivity|].
  assert (A : Gs sdl_rules c ph n = [] /\ Us sdl_rules c ph n = c) by (destruct ph, n; try discriminate E; split; reflexivity). destruct A as [-> ->]. apply IH.
Qed.
Lemma new_sdl_doc doc s : c_doc (new_sdl_context doc s) = name_document doc. Proof. reflexivity. Qed.
Lemma Ge_named c doc : Ge sdl_rules c (events (tDocument (name_document doc))) = Ge sdl_rules c (events (tDocument doc)).
Proof. rewrite Ge_read, read_named, <- Ge_read. reflexivity. Qed.
Lemma sdl_errors doc s : c_errors (validate_sdl doc s) = rev (Ge sdl_rules (new_sdl_context doc s) (events (tDocument doc))) ++ c_errors (new_sdl_context doc s).
Proof. unfold validate_sdl. cbv zeta. rewrite new_sdl_doc, <- sdl_rules_rules. rewrite (walk_errors goods goods_set sdl_rules sdl_rules_ok) by apply goods_new. rewrite Ge_named. reflexivity. Qed.
Lemma prep_tags doc s : Forall (fun e => tag e = 0) (c_errors (new_sdl_context doc s)).
Proof.
  destruct (prepare_spec doc s) as (sd & H). pose proof (pr_e_kinds _ _ _ _ _ _ H) as F. eapply Forall_impl; [|exact F]. intros e. destruct e; cbn; congruence.
Qed.
Lemma filter_all_false {X} (f : X -> bool) (P : X -> Prop) l : Forall P l -> (forall x, P x -> f x = false) -> filter f l = [].
Proof. induction 1 as [|x l H _ IH]; intros G; [reflexivity|]. cbn. rewrite (G x H). apply IH, G. Qed.
Lemma sdl_reported0 k t doc s : t <> 0 -> (forall e, k e = Nat.eqb (tag e) t) ->
  reported k (validate_sdl doc s) = filter (fun e => Nat.eqb (tag e) t) (Ge sdl_rules (new_sdl_context doc s) (events (tDocument doc))).
Proof.
  intros Ht Hk. unfold reported. rewrite sdl_errors, filter_app. rewrite (filter_all_false k (fun e => tag e = 0) (c_errors _) (prep_tags doc s)).
  - rewrite app_nil_r, filter_rev', rev_involutive. apply filter_ext. exact Hk.
  - intros e E. rewrite Hk, E. destruct t; [congruence|reflexivity].
Qed.
Lemma sdl_reported k t g doc s : t <> 0 -> (forall e, k e = Nat.eqb (tag e) t) -> insens (enter g) ->
  (forall c ph n, filter (fun e => Nat.eqb (tag e) t) (Gs sdl_rules c ph n) = enter g c ph n) ->
  reported k (validate_sdl doc s) = flat_map (g (new_sdl_context doc s)) (nodes doc).
Proof. intros Ht Hk Hi Hg. rewrite (sdl_reported0 k t doc s Ht Hk), (Ge_sdl t _ _ _ Hi Hg). apply enter_nodes. Qed.
Lemma sdl_prepared k doc s : (forall e, k e = true -> tag e = 0) -> reported k (validate_sdl doc s) = rev (filter k (c_errors (new_sdl_context doc s))).
Proof.
  intros Hk. unfold reported. rewrite sdl_errors, filter_app. rewrite (filter_all_false k (fun e => tag e <> 0) (rev _)); [reflexivity| |].
  - apply Forall_rev. generalize (new_sdl_context doc s) as c. generalize (events (tDocument doc)) as es. induction es as [|[ph n] es IH]; intros c; cbn [Ge]; [constructor|]. apply Forall_app. split; [|apply IH].
    apply Forall_forall. intros e He E. assert (X : In e (filter (fun e => Nat.eqb (tag e) 0) (Gs sdl_rules c ph n))) by (apply filter_In; split; [exact He|]; rewrite E; reflexivity).
    rewrite filter_Gs in X. exact X.
  - intros e He. destruct (k e) eqn:E; [|reflexivity]. destruct (He (Hk e E)).
Qed.
Ltac st := intros; rewrite filter_Gs; cbn [Nat.eqb app]; rewrite ?app_nil_r; reflexivity.
Lemma w_udirs doc s : reported is_dup_directive (validate_sdl doc s) = flat_map (g_udirs (new_sdl_context doc s)) (nodes doc).
Proof. apply (sdl_reported _ 6); [lia|kk|exact i_udirs|st]. Qed.
Lemma w_uargs doc s : reported is_dup_arg (validate_sdl doc s) = flat_map (g_uargs (new_sdl_context doc s)) (nodes doc).
Proof. apply (sdl_reported _ 7); [lia|kk|exact i_uargs|st]. Qed.
Lemma w_uinput doc s : reported is_dup_input (validate_sdl doc s) = flat_map (g_uinput (new_sdl_context doc s)) (nodes doc).
Proof. apply (sdl_reported _ 8); [lia|kk|exact i_uinput|st]. Qed.
Lemma w_kargs doc s : reported is_unknown_arg (validate_sdl doc s) = flat_map (g_kargs (new_sdl_context doc s)) (nodes doc).
Proof. apply (sdl_reported _ 9); [lia|kk|exact i_kargs|st]. Qed.
Lemma w_dirs doc s : reported is_directive_err (validate_sdl doc s) = flat_map (g_dirs (new_sdl_context doc s)) (nodes doc).
Proof. apply (sdl_reported _ 5); [lia|kk|exact i_dirs|st]. Qed.
Lemma w_types doc s : reported is_unknown_type (validate_sdl doc s) = flat_map (g_types (new_sdl_context doc s)) (nodes doc).
Proof. apply (sdl_reported _ 3); [lia|kk|exact i_types|st]. Qed.
Lemma w_names doc s : reported is_underscores (validate_sdl doc s) = flat_map (g_names (new_sdl_context doc s)) (nodes doc).
Proof. apply (sdl_reported _ 10); [lia|kk|exact i_names|st]. Qed.
Lemma w_ext doc s : reported is_ext_err (validate_sdl doc s) = flat_map (g_ext (new_sdl_context doc s)) (nodes doc).
Proof. apply (sdl_reported _ 11); [lia|kk|exact i_ext|st]. Qed.
Lemma w_required doc s : reported is_missing_arg (validate_sdl doc s) = flat_map (g_required (new_sdl_context doc s)) (nodes doc).
Proof. apply (sdl_reported _ 12); [lia|kk|exact i_required|st]. Qed.
(** and there are no other kinds *)
Definition sdl_kinds (e : err) : bool :=
  is_optype_err e || is_dup_directive e || is_dup_arg e || is_dup_input e || is_unknown_arg e || is_directive_err e || is_unknown_type e || is_underscores e || is_ext_err e || is_missing_arg e ||
  is_dup_type e || is_existed_type e || is_dup_dir e || is_existed_dir e || is_schema_err e.
Lemma w_kinds doc s : Forall (fun e => sdl_kinds e = true) (c_errors (validate_sdl doc s)).
Proof.
  rewrite sdl_errors. apply Forall_app. split.
  - apply Forall_rev. generalize (new_sdl_context doc s) as c. generalize (events (tDocument doc)) as es. induction es as [|[ph n] es IH]; intros c; cbn [Ge]; [constructor|]. apply Forall_app. split; [|apply IH].
    assert (W : forall t (g : ctx -> phase -> node -> list err), tagged t g -> In t [3;5;6;7;8;9;10;11;12;13] -> Forall (fun e => sdl_kinds e = true) (g c ph n)).
    { intros t g Hg Ht. eapply Forall_impl; [|apply Hg]. intros e E. cbn in Ht. destruct e; cbn in E; try reflexivity; subst; intuition congruence. }
    rewrite Gs_sdl, !Forall_app.
    repeat split; [apply (W 13)|apply (W 6)|apply (W 7)|apply (W 8)|apply (W 9)|apply (W 5)|apply (W 3)|apply (W 10)|apply (W 11)|apply (W 12)];
      try (cbn; tauto); first [exact tg_optypes|exact tg_udirs|exact tg_uargs|exact tg_uinput|exact tg_kargs|exact tg_dirs|exact tg_types|exact tg_names|exact tg_ext|exact tg_required|idtac].
  - destruct (prepare_spec doc s) as (sd & H). eapply Forall_impl; [|exact (pr_e_kinds _ _ _ _ _ _ H)]. intros e. destruct e; cbn; congruence.
Qed.
(** the context afterwards *)
Lemma sdl_ctx doc s : exists es os, validate_sdl doc s = set_errors es (mark_all os (new_sdl_context doc s)).
Proof.
  unfold validate_sdl. cbv zeta. rewrite new_sdl_doc, <- sdl_rules_rules, walk_run. rewrite <- (emit_nil (new_sdl_context doc s)).
  rewrite (walk_emits goods goods_set sdl_rules sdl_rules_ok _ _ [] (goods_new doc s)). rewrite emit_nil.
  assert (G : forall es c, exists os, Ue sdl_rules c es = mark_all os c).
  { induction es as [|[ph n] es IH]; intros c; cbn [Ue]; [exists []; unfold mark_all; destruct (c_sdl c) eqn:E; [destruct c; cbn in *; rewrite E; reflexivity|reflexivity]|].
    rewrite Us_sdl. destruct (u_mark c ph n) as (os & ->). destruct (IH (mark_all os c)) as (os' & ->). exists (os ++ os'). unfold mark_all. destruct (c_sdl c) eqn:E; [|rewrite E; reflexivity].
    cbn [c_sdl set_sdl]. rewrite fold_left_app. reflexivity. }
  destruct (G (events (tDocument (name_document doc))) (new_sdl_context doc s)) as (os & ->). exists (rev ([] ++ Ge sdl_rules (new_sdl_context doc s) (events (tDocument (name_document doc)))) ++ c_errors (mark_all os (new_sdl_context doc s))), os. reflexivity.
Qed.

(** ** Operation types *)
Fixpoint opt (c : ctx) (es : list (phase * node)) : list err :=
  match es with [] => [] | (ph, n) :: es => leave g_optypes c ph n ++ opt (u_optypes c ph n) es end.
Lemma Ge_opt c es : filter (fun e => Nat.eqb (tag e) 13) (Ge sdl_rules c es) = opt c es.
Proof.
  revert c. induction es as [|[ph n] es IH]; intros c; cbn [Ge opt]; [reflexivity|]. rewrite filter_app, filter_Gs, IH, Us_sdl. cbn [Nat.eqb app]. rewrite !app_nil_r. reflexivity.
Qed.
Lemma opt_rel c es : opt c es = opt c (filter rel es).
Proof.
  revert c. induction es as [|[ph n] es IH]; intros c; [reflexivity|]. cbn [opt filter]. unfold rel at 1. cbn [snd]. destruct (inner n) eqn:E; cbn [negb].
  - rewrite IH. destruct ph; [reflexivity|]. destruct n; try reflexivity; discriminate E.
  - cbn [opt]. rewrite IH. reflexivity.
Qed.
Lemma rel_doc doc : filter rel (events (tDocument doc)) =
  match doc_defs doc with [] => [(Enter, NDocument doc); (Leave, NDocument doc)]
  | _ => [(Enter, NDocument doc); (Enter, NDefinitions (doc_defs doc))] ++ flat_map (fun p => head_events (fst p) (snd p)) (numbered (doc_defs doc)) ++ [(Leave, NDefinitions (doc_defs doc)); (Leave, NDocument doc)] end.
Proof.
  unfold tDocument. cbn [events filter]. unfold rel at 1. cbn [snd inner negb]. rewrite filter_app. cbn [filter]. unfold rel at 2. cbn [snd inner negb].
  destruct (doc_defs doc) as [|d0 ds] eqn:E; [reflexivity|]. cbn [tNonnil flat_map]. rewrite app_nil_r. unfold tDefinitions. cbn [events filter]. unfold rel at 1. cbn [snd inner negb]. rewrite filter_app. cbn [filter]. unfold rel at 2. cbn [snd inner negb].
  cbn [app]. f_equal. f_equal. rewrite <- app_assoc. f_equal. generalize (numbered (d0 :: ds)) as ps. induction ps as [|[i d] ps IH]; [reflexivity|]. cbn [map flat_map]. rewrite filter_app, IH, rel_def. reflexivity.
Qed.
Fixpoint opt_defs (c : ctx) (ds : list definition) : list err :=
  match ds with
  | [] => []
  | d :: ds => match def_body d with
               | DSchema x => g_optypes c (NSchemaDefinition x) ++ opt_defs (mark_all (map ot_op (s_ops x)) c) ds
               | XSchema x => g_optypes c (NSchemaExtension x) ++ opt_defs (mark_all (map ot_op (s_ops x)) c) ds
               | _ => opt_defs c ds
               end
  end.
Lemma opt_doc c doc : opt c (events (tDocument doc)) = opt_defs c (doc_defs doc).
Proof.
  rewrite opt_rel, rel_doc. destruct (doc_defs doc) as [|d0 ds] eqn:E; [reflexivity|]. rewrite <- E. clear E d0 ds. cbn [app opt leave u_optypes].
  rewrite <- (numbered_snd (doc_defs doc)) at 3. generalize (doc_defs doc) at 2 as X. generalize (numbered (doc_defs doc)) as ps. intros ps X.
  assert (Z : forall y, opt y [(Leave, NDefinitions X); (Leave, NDocument doc)] = []) by reflexivity. revert Z. generalize [(Leave, NDefinitions X); (Leave, NDocument doc)] as tl. intros tl Z.
  revert c. induction ps as [|[i d] ps IH]; intros c; cbn [flat_map map]; [apply Z|]. cbn [app]. rewrite <- app_assoc. unfold head_events, heads. cbn [fst snd opt_defs].
  destruct (def_body d) as [o|f|x|x|x|x|x]; cbn [app map rev opt leave g_optypes u_optypes]; rewrite ?app_nil_r, IH; reflexivity.
Qed.
