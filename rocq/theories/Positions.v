(** * Positions: nothing in validation and schema building reads the positions of the definitions. *)
From Verif Require Import Base AST Walker WalkSpec Context Rules SchemaBuild.

(** A document without positions. *)
Definition blank_def (d : definition) : definition := mkDef 0 0 (def_body d).
Definition blank (d : document) : document :=
  mkDoc (map blank_def (doc_defs d)) (n_ops d) (n_frags d) (n_dirdefs d) (n_schemas d) (n_types d) (n_schemaexts d) (n_typeexts d).
Definition bl (c : ctx) : ctx := set_doc (blank (c_doc c)) c.
Definition bln (n : node) : node :=
  match n with NDocument d => NDocument (blank d) | NDefinitions l => NDefinitions (map blank_def l) | NDefinition i d => NDefinition i (blank_def d) | _ => n end.
Definition ble (e : phase * node) : phase * node := (fst e, bln (snd e)).

(** ** The events of the blank document *)
Definition inner_node (n : node) : Prop := match n with NDocument _ | NDefinitions _ | NDefinition _ _ => False | _ => True end.
Lemma fnn {X} (f : list X -> node) l : (forall l, inner_node (f l)) -> Forall inner_node (nonnil f l).
Proof. intros H. destruct l; repeat constructor. apply H. Qed.
Lemma fso {X} (f : X -> node) o : (forall l, inner_node (f l)) -> Forall inner_node (some f o).
Proof. intros H. destruct o; repeat constructor. apply H. Qed.
Lemma fmp {X} (f : X -> node) l : (forall l, inner_node (f l)) -> Forall inner_node (map f l).
Proof. intros H. induction l; constructor; auto. Qed.
Lemma kids_inner n : inner_node n -> Forall inner_node (kids n).
Proof.
  intros H; destruct n; cbn [kids]; try destruct H; rewrite ?Forall_app;
  repeat match goal with |- _ /\ _ => split | |- Forall _ (nonnil _ _) => apply fnn | |- Forall _ (some _ _) => apply fso | |- Forall _ (map _ _) => apply fmp
                | |- Forall _ (match ?x with _ => _ end) => destruct x | |- Forall _ [] => constructor | |- Forall _ (_ :: _) => constructor | |- Forall _ (_ ++ _) => apply Forall_app end; intros; exact I.
Qed.
Lemma tree_inner t : ast_tree t -> inner_node (root t) -> Forall (fun e => inner_node (snd e)) (events t).
Proof.
  induction t as [n cs IH] using tree_nest. intros H Hi. inversion H as [? ? K F]; subst. cbn [root] in Hi. pose proof (kids_inner n Hi) as Q. rewrite <- K in Q. clear K H.
  cbn [events]. constructor; [exact Hi|]. apply Forall_app. split; [|repeat constructor; exact Hi].
  induction cs as [|c cs IHc]; [constructor|]. inversion IH; inversion F; inversion Q; subst. cbn [flat_map]. apply Forall_app. split; auto.
Qed.
Lemma ble_inner es : Forall (fun e => inner_node (snd e)) es -> map ble es = es.
Proof. induction 1 as [|[ph n] es H _ IH]; [reflexivity|]. cbn [map]. rewrite IH. f_equal. unfold ble. cbn [fst snd] in *. destruct n; try contradiction; reflexivity. Qed.
Lemma body_inner i b : map ble (events (tBody i b)) = events (tBody i b).
Proof. apply ble_inner, tree_inner; [apply ok_body|]. destruct b; exact I. Qed.
Lemma events_blank d : events (tDocument (blank d)) = map ble (events (tDocument d)).
Proof.
  unfold tDocument. cbn [events map blank doc_defs]. rewrite map_app. f_equal. f_equal. destruct (doc_defs d) as [|d0 l]; [reflexivity|]. cbn [map tNonnil flat_map]. rewrite !app_nil_r.
  change (blank_def d0 :: map blank_def l) with (map blank_def (d0 :: l)). generalize (d0 :: l) as ds. clear. intros ds. unfold tDefinitions. cbn [events map]. rewrite map_app. f_equal. f_equal.
  unfold numbered. rewrite map_length. generalize 0 as k. induction ds as [|d ds IH]; intros k; [reflexivity|]. cbn [List.length seq map combine flat_map]. rewrite map_app, IH. f_equal.
  unfold tDefinition. cbn [fst snd events map flat_map]. rewrite !app_nil_r, map_app, body_inner. reflexivity.
Qed.

(** ** Walkers whose handlers do not see positions *)
Definition blind_h (h : handler ctx) : Prop := forall c n, h (bl c) (bln n) = bl (h c n).
Definition blind (w : walker ctx) : Prop := forall ph t, Forall blind_h (w ph t).
Definition blind_rule (r : walker ctx -> walker ctx) : Prop := forall w, blind w -> blind (r w).
Lemma type_bln n : ntype_of (bln n) = ntype_of n. Proof. destruct n; reflexivity. Qed.
Lemma walk_blank w d c : blind w -> walk w (blank d) (bl c) = bl (walk w d c).
Proof.
  intros H. rewrite !walk_run, events_blank. generalize (events (tDocument d)) as es. intros es. revert c. induction es as [|[ph n] es IH]; intros c; [reflexivity|].
  cbn [map]. unfold run_events. cbn [fold_left]. fold (run_events w (map ble es) (step w (bl c) (ble (ph, n)))). fold (run_events w es (step w c (ph, n))).
  rewrite <- IH. f_equal. unfold step, ble. cbn [fst snd]. rewrite type_bln. specialize (H ph (ntype_of n)). revert c. induction H as [|h hs Hh _ IHh]; intros c; [reflexivity|].
  cbn [fold_left]. rewrite Hh. apply IHh.
Qed.
Lemma blind_add ph t h : blind_h h -> blind_rule (add_handler ph t h).
Proof. intros Hh w Hw ph' t'. unfold add_handler. destruct (phase_eq_dec ph ph'); [destruct (ntype_eq_dec t t')|]; try apply Hw. apply Forall_app. split; [apply Hw|repeat constructor; exact Hh]. Qed.
Lemma blind_new rs : Forall blind_rule rs -> blind (new_walker rs).
Proof.
  unfold new_walker. intros H. assert (blind (@empty_walker ctx)) as E by (intros ph t; constructor). revert E. generalize (@empty_walker ctx) as w.
  induction H as [|r rs Hr _ IH]; intros w Hw; [exact Hw|]. apply IH, Hr, Hw.
Qed.
Lemma each_blind {X} (f : X -> ctx -> ctx) l : (forall x c, f x (bl c) = bl (f x c)) -> forall c, each f l (bl c) = bl (each f l c).
Proof. intros H. unfold each. induction l as [|x l IH]; intros c; [reflexivity|]. cbn [fold_left]. rewrite H. apply IH. Qed.
Lemma unique_blind mk l c : unique_loop mk l (bl c) = bl (unique_loop mk l c).
Proof.
  unfold unique_loop. generalize (@nil bytes) as seen. revert c. induction l as [|x l IH]; intros c seen; [reflexivity|]. cbn [fold_left fst snd].
  destruct (inb x seen); [exact (IH (add_error (mk x) c) seen)|apply IH].
Qed.
Lemma fold_blind {X S} (f : S -> X -> ctx -> S * ctx) l : (forall s x c, fst (f s x (bl c)) = fst (f s x c) /\ snd (f s x (bl c)) = bl (snd (f s x c))) ->
  forall s c, snd (fold_left (fun st x => f (fst st) x (snd st)) l (s, bl c)) = bl (snd (fold_left (fun st x => f (fst st) x (snd st)) l (s, c))).
Proof.
  intros H. induction l as [|x l IH]; intros s c; [reflexivity|]. cbn [fold_left fst snd]. destruct (H s x c) as [H1 H2]. destruct (f s x (bl c)) as [s1 c1], (f s x c) as [s2 c2]. cbn [fst snd] in *. subst. apply IH.
Qed.
Lemma rvu_bl c i : recursive_variable_usages (bl c) i = recursive_variable_usages c i.
Proof.
  unfold recursive_variable_usages. f_equal. assert (E : ctx_fuel (bl c) = ctx_fuel c) by (unfold ctx_fuel; cbn [bl c_doc set_doc blank doc_defs]; rewrite map_length; reflexivity).
  rewrite E. generalize (@nil bytes, @nil nat) as st. generalize (ctx_fuel c) as fuel.
  intros fuel. revert i. induction fuel as [|f IH]; intros i st; [reflexivity|]. cbn [rvu].
  change (referenced_fragments (bl c) i) with (referenced_fragments c i). change (variable_usages (bl c) i) with (variable_usages c i).
  generalize (Some (fold_left (fun agg v => addset v agg) (variable_usages c i) (fst st), snd st)) as o. induction (referenced_fragments c i) as [|rd l IHl]; intros o; [reflexivity|].
  cbn [fold_left]. rewrite IHl. f_equal. destruct o as [[agg seen]|]; [|reflexivity]. destruct (inNat rd seen); [reflexivity|apply IH].
Qed.

(** ** The rules *)
Lemma b_setExec : blind_rule setExecutableDefinition. Proof. apply blind_add. intros c n. destruct n; reflexivity. Qed.
Lemma b_setFrags : blind_rule setFragments. Proof. apply blind_add. intros c n. destruct n; reflexivity. Qed.
Definition ref_step (name : bytes) (p : nat * definition) (c : ctx) : ctx :=
  match def_body (snd p) with
  | DFrag f => if beqb (f_name f) name then let l := pget (c_exec c) (c_refs c) in if inNat (fst p) l then c else set_refs (pset (c_exec c) (l ++ [fst p]) (c_refs c)) c else c
  | _ => c end.
Lemma ref_step_bl name k d c : ref_step name (k, blank_def d) (bl c) = bl (ref_step name (k, d) c).
Proof.
  unfold ref_step. cbn [fst snd blank_def def_body]. destruct (def_body d) as [|f| | | | |]; try reflexivity. destruct (beqb (f_name f) name); [|reflexivity]. cbv zeta.
  change (c_exec (bl c)) with (c_exec c). change (c_refs (bl c)) with (c_refs c). destruct (inNat k (pget (c_exec c) (c_refs c))); reflexivity.
Qed.
Lemma b_setRefs : blind_rule setReferencedFragments.
Proof.
  apply blind_add. intros c n. destruct n; try reflexivity. cbn [bln]. destruct s as [|name dirs|]; try reflexivity.
  change (each (ref_step name) (numbered (map blank_def (doc_defs (c_doc c)))) (bl c) = bl (each (ref_step name) (numbered (doc_defs (c_doc c))) c)).
  unfold numbered. rewrite map_length. generalize (doc_defs (c_doc c)) as ds. generalize 0 as k. intros k ds. revert k c.
  induction ds as [|d ds IH]; intros k c; [reflexivity|]. cbn [List.length seq map combine]. unfold each in *. cbn [fold_left]. rewrite ref_step_bl. apply IH.
Qed.
Lemma b_setVars : blind_rule setVariableUsages.
Proof. apply blind_add. intros c n. destruct n; try reflexivity. cbn [bln]. destruct v; try reflexivity. cbv zeta. change (c_exec (bl c)) with (c_exec c). change (c_vars (bl c)) with (c_vars c). destruct (inb n (pget (c_exec c) (c_vars c))); reflexivity. Qed.
Lemma b_exec : blind_rule ExecutableDefinitions. Proof. apply blind_add. intros c n. destruct n; try reflexivity. cbn [bln blank_def def_body]. destruct (def_body d); reflexivity. Qed.
Lemma b_anon : blind_rule LoneAnonymousOperation.
Proof. apply blind_add. intros c n. destruct n; try reflexivity. cbn [bln]. change (n_ops (c_doc (bl c))) with (n_ops (c_doc c)). destruct (beqb _ _ && _); reflexivity. Qed.
Lemma b_types : blind_rule KnownTypeNames.
Proof. apply blind_add. intros c n. destruct n; try reflexivity. cbn [bln]. destruct t; try reflexivity. cbv zeta. change (c_schema (bl c)) with (c_schema c). change (c_sdl (bl c)) with (c_sdl c). destruct (_ && _ && _); reflexivity. Qed.
Lemma b_unused : blind_rule NoUnusedVariables.
Proof.
  apply blind_add. intros c n. destruct n; try reflexivity. cbn [bln]. destruct b; try reflexivity. rewrite rvu_bl. destruct (recursive_variable_usages c i) as [uses|]; [|reflexivity].
  apply each_blind. intros x c'. destruct (inb (v_name x) uses); reflexivity.
Qed.
Lemma b_dirs : blind_rule KnownDirectives.
Proof.
  apply blind_add. intros c n. destruct n; try reflexivity. cbn [bln]. cbv zeta. change (c_schema (bl c)) with (c_schema c). change (c_sdl (bl c)) with (c_sdl c).
  match goal with |- match ?x with _ => _ end = _ => destruct x as [x'|]; [|reflexivity] end. destruct (N.eqb _ _); reflexivity.
Qed.
Lemma b_udirs : blind_rule UniqueDirectivesPerLocation. Proof. apply blind_add. intros c n. destruct n; try reflexivity. apply unique_blind. Qed.
Lemma b_uargs : blind_rule UniqueArgumentNames.
Proof.
  intros w Hw. unfold UniqueArgumentNames. repeat (apply blind_add; [intros c n; destruct n; try reflexivity; cbn [bln]; try apply unique_blind|]); [|exact Hw]. destruct s; try reflexivity. apply unique_blind.
Qed.
Lemma b_uinput : blind_rule UniqueInputFieldNames. Proof. apply blind_add. intros c n. destruct n; try reflexivity. cbn [bln]. destruct v; try reflexivity. apply unique_blind. Qed.
Lemma mark_bl o c : mark o (bl c) = bl (mark o c). Proof. unfold mark. change (c_sdl (bl c)) with (c_sdl c). destruct (c_sdl c); reflexivity. Qed.
Lemma b_optypes : blind_rule UniqueOperationTypes.
Proof.
  intros w Hw. unfold UniqueOperationTypes. apply blind_add; [|apply blind_add; [|exact Hw]]; intros c n; destruct n; try reflexivity; cbn [bln].
  - apply each_blind. intros x c'. change (c_sdl (bl c')) with (c_sdl c'). destruct (c_sdl c') as [sd|]; [|reflexivity]. change (c_schema (bl c')) with (c_schema c'). rewrite <- mark_bl. f_equal.
    destruct (schema_op _ _); [reflexivity|]. destruct (flag _ _); reflexivity.
  - apply (fold_blind (fun seen ot c => (ot_op ot :: seen, mark (ot_op ot) (if existsb (opkind_eqb (ot_op ot)) seen then add_error (EDupOperationType (op_string (ot_op ot))) c else c)))).
    intros seen x c'. cbn [fst snd]. split; [reflexivity|]. rewrite <- mark_bl. f_equal. destruct (existsb _ _); reflexivity.
Qed.
Lemma b_kargs : blind_rule KnownArgumentNamesOnDirectives.
Proof.
  apply blind_add. intros c n. destruct n; try reflexivity. cbn [bln]. change (c_sdl (bl c)) with (c_sdl c). destruct (d_args d) as [|a0 l] eqn:E; [reflexivity|]. rewrite <- E in *. clear E.
  destruct (c_sdl c) as [sd|]; [|reflexivity]. change (ctx_directive (bl c) sd (d_name d)) with (ctx_directive c sd (d_name d)). destruct (ctx_directive c sd (d_name d)) as [def|]; [|reflexivity].
  apply (fold_blind (fun cur a c => ([], if scan_args (arg_name a) cur then c else add_error (EUnknownDirArg (arg_name a) (d_name d)) c))).
  intros seen x c'. cbn [fst snd]. split; [reflexivity|]. destruct (scan_args _ _); reflexivity.
Qed.
Lemma b_names : blind_rule PossibleNames.
Proof. intros w Hw. unfold PossibleNames, check_name. repeat (apply blind_add; [intros c n; destruct n; try reflexivity; cbn [bln]; destruct (is_valid_name _); reflexivity|]). exact Hw. Qed.
Lemma b_ext : blind_rule PossibleTypeExtensions.
Proof.
  apply blind_add. intros c n. destruct n; try reflexivity. cbn [bln]. change (c_sdl (bl c)) with (c_sdl c). destruct (c_sdl c) as [sd|]; [|reflexivity].
  change (ctx_type (bl c) sd (t_name t)) with (ctx_type c sd (t_name t)). destruct (ctx_type c sd (t_name t)) as [def|]; [|reflexivity]. destruct (tkind_eqb _ _); reflexivity.
Qed.
Lemma b_required : blind_rule ProvidedRequiredArgumentsOnDirectives.
Proof.
  apply blind_add. intros c n. destruct n; try reflexivity. cbn [bln]. cbv zeta. change (c_schema (bl c)) with (c_schema c). change (c_sdl (bl c)) with (c_sdl c).
  match goal with |- match ?x with _ => _ end = _ => destruct x as [[x'|]|]; try reflexivity end. apply each_blind. intros x c'. destruct (_ && _ && _); reflexivity.
Qed.

(** ** Contexts *)
Lemma blind_query : blind query_context_walker.
Proof. apply blind_new. repeat (apply Forall_cons || apply Forall_nil); [apply b_setFrags|apply b_setExec|apply b_setRefs|apply b_setVars]. Qed.
Lemma blind_specified : blind (new_walker Specified).
Proof. apply blind_new. repeat (apply Forall_cons || apply Forall_nil); [apply b_exec|apply b_anon|apply b_types|apply b_unused|apply b_dirs|apply b_udirs|apply b_uargs|apply b_uinput]. Qed.
Lemma blind_sdl : blind (new_walker SpecifiedSDL).
Proof. apply blind_new. repeat (apply Forall_cons || apply Forall_nil); [apply b_optypes|apply b_udirs|apply b_uargs|apply b_uinput|apply b_kargs|apply b_dirs|apply b_types|apply b_names|apply b_ext|apply b_required]. Qed.
Lemma validate_blank d s : validate (blank d) s = bl (validate d s).
Proof.
  unfold validate. rewrite <- walk_blank by apply blind_specified. f_equal. unfold new_context. rewrite <- walk_blank by apply blind_query. reflexivity.
Qed.
Lemma prepare1_bl c d : prepare1 (bl c) (blank_def d) = bl (prepare1 c d).
Proof.
  unfold prepare1. change (c_sdl (bl c)) with (c_sdl c). change (c_schema (bl c)) with (c_schema c). cbn [blank_def def_body]. destruct (c_sdl c) as [sd|]; [|reflexivity].
  destruct (def_body d) as [o|f|x|x|x|x|x]; try reflexivity.
  - destruct (sd_extending sd); [reflexivity|]. destruct (sd_schema sd); reflexivity.
  - destruct (mem _ _); [reflexivity|]. destruct (mem _ _); reflexivity.
  - destruct (mem _ _); [reflexivity|]. destruct (mem _ _); reflexivity.
Qed.
Lemma new_sdl_blank d s : new_sdl_context (blank d) s = bl (new_sdl_context d s).
Proof.
  unfold new_sdl_context, prepare. cbn [c_doc blank doc_defs].
  match goal with |- set_doc ?D (fold_left _ _ ?C) = bl (set_doc ?E (fold_left _ _ ?C')) => assert (HD : D = blank E); [|assert (HC : C = bl C') by reflexivity; rewrite HD, HC; clear HD HC; generalize C' as c0; generalize E as D0] end.
  - unfold name_document, blank. cbn [doc_defs n_ops n_frags n_dirdefs n_schemas n_types n_schemaexts n_typeexts]. f_equal. rewrite !map_map. apply map_ext. intros d0. unfold name_definition, blank_def. cbn [def_body]. destruct (def_body d0) eqn:E; cbn [def_body]; rewrite ?E; reflexivity.
  - intros D0 c0. revert c0. induction (doc_defs d) as [|d0 ds IH]; intros c0; [reflexivity|]. cbn [map fold_left]. rewrite prepare1_bl. apply IH.
Qed.
Lemma validate_sdl_blank d s : validate_sdl (blank d) s = bl (validate_sdl d s).
Proof. unfold validate_sdl. cbv zeta. rewrite <- walk_blank by apply blind_sdl. rewrite new_sdl_blank. reflexivity. Qed.
Lemma build_bl ord c : build_schema ord (bl c) = bl (build_schema ord c).
Proof.
  unfold build_schema.
  assert (H1 : forall c, merge_schema (bl c) = bl (merge_schema c)) by (intros c0; unfold merge_schema; change (c_sdl (bl c0)) with (c_sdl c0); destruct (c_sdl c0) as [sd|]; [|reflexivity]; destruct (sd_schema sd); reflexivity).
  assert (H2 : forall c, merge_types ord (bl c) = bl (merge_types ord c)).
  { clear. induction ord as [|[n xs] ord IH]; intros c; [reflexivity|]. cbn [merge_types]. change (c_sdl (bl c)) with (c_sdl c). destruct (c_sdl c) as [sd|]; [|reflexivity].
    change (ctx_type (bl c) sd n) with (ctx_type c sd n). destruct (ctx_type c sd n) as [t|]; [|reflexivity]. rewrite <- IH. f_equal. unfold put_type. change (c_schema (bl c)) with (c_schema c). destruct (_ && _); reflexivity. }
  assert (H3 : forall c, build_definition (bl c) = bl (build_definition c)) by (intros c0; unfold build_definition; change (c_sdl (bl c0)) with (c_sdl c0); destruct (c_sdl c0); reflexivity).
  assert (H4 : forall c, build_directives (bl c) = bl (build_directives c)) by (intros c0; unfold build_directives; change (c_sdl (bl c0)) with (c_sdl c0); destruct (c_sdl c0) as [sd|]; [|reflexivity]; destruct (sd_extending sd); reflexivity).
  assert (H5 : forall c, build_types (bl c) = bl (build_types c)) by (intros c0; unfold build_types; change (c_sdl (bl c0)) with (c_sdl c0); destruct (c_sdl c0) as [sd|]; [|reflexivity]; destruct (sd_extending sd); reflexivity).
  rewrite H1, H2, H3, H4, H5. reflexivity.
Qed.
