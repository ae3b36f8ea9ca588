(** * RuleProofs: rules as error emitters, and the errors of a whole walk. *)
From Coq Require Import Permutation.
From Verif Require Import Base AST Walker WalkSpec Context Rules CtxProofs.

(** ** Emitting errors *)
Definition emit (es : list err) (c : ctx) : ctx := set_errors (rev es ++ c_errors c) c.
Lemma emit_nil c : emit [] c = c. Proof. destruct c; reflexivity. Qed.
Lemma emit_one e c : add_error e c = emit [e] c. Proof. destruct c; reflexivity. Qed.
Lemma emit_app a b c : emit b (emit a c) = emit (a ++ b) c.
Proof. unfold emit. rewrite rev_app_distr, <- app_assoc. reflexivity. Qed.
Lemma emit_set e es c : set_errors e (emit es c) = set_errors e c. Proof. destruct c; reflexivity. Qed.
Lemma set_emit e es c : emit es (set_errors e c) = set_errors (rev es ++ e) c. Proof. destruct c; reflexivity. Qed.

(** An error for every element that satisfies a test. *)
Lemma each_emit {X} (f : X -> ctx -> ctx) (g : X -> list err) (l : list X) c :
  (forall x c', (exists e, c' = set_errors e c) -> f x c' = emit (g x) c') -> each f l c = emit (flat_map g l) c.
Proof.
  intros H. unfold each.
  assert (G : forall es, fold_left (fun c x => f x c) l (emit es c) = emit (es ++ flat_map g l) c).
  { induction l as [|x l IH]; intros es; cbn [fold_left flat_map]; [rewrite app_nil_r; reflexivity|].
    rewrite H by (eexists; reflexivity). rewrite emit_app, IH, app_assoc. reflexivity. }
  rewrite <- (emit_nil c) at 1. apply (G []).
Qed.

(** The elements of a list that already occurred before. *)
Fixpoint repeats_from (seen l : list bytes) : list bytes :=
  match l with [] => [] | x :: l => if inb x seen then x :: repeats_from seen l else repeats_from (x :: seen) l end.
Definition repeats (l : list bytes) : list bytes := repeats_from [] l.
Lemma unique_loop_emit mk l c : unique_loop mk l c = emit (map mk (repeats l)) c.
Proof.
  unfold unique_loop, repeats.
  assert (G : forall seen es, snd (fold_left (fun st n => if inb n (fst st) then (fst st, add_error (mk n) (snd st)) else (n :: fst st, snd st)) l (seen, emit es c)) =
    emit (es ++ map mk (repeats_from seen l)) c).
  { induction l as [|x l IH]; intros seen es; cbn [fold_left repeats_from]; [cbn; rewrite app_nil_r; reflexivity|]. cbn [fst snd].
    destruct (inb x seen); cbn [map].
    - rewrite emit_one, emit_app, IH, <- app_assoc. reflexivity.
    - apply IH. }
  rewrite <- (emit_nil c) at 1. apply (G [] []).
Qed.

(** ** Rules *)
Definition on_node (hs : list (handler ctx)) (c : ctx) (n : node) : ctx := fold_left (fun c h => h c n) hs c.
(** [r] registers handlers that, on contexts satisfying [good], emit the errors [g c ph n] and change the context by [u]. *)
Record sem (good : ctx -> Prop) (r : walker ctx -> walker ctx) (g : ctx -> phase -> node -> list err) (u : ctx -> phase -> node -> ctx) : Prop := mkSem {
  sem_ext : forall w ph t, r w ph t = w ph t ++ r empty_walker ph t;
  sem_run : forall c ph n, good c -> on_node (r empty_walker ph (ntype_of n)) c n = emit (g c ph n) (u c ph n);
  sem_g : forall e c ph n, g (set_errors e c) ph n = g c ph n;
  sem_u : forall e c ph n, u (set_errors e c) ph n = set_errors e (u c ph n);
  sem_errs : forall c ph n, c_errors (u c ph n) = c_errors c;
  sem_good : forall c ph n, good c -> good (u c ph n) }.
Record rsem := mkRs { rs_rule : walker ctx -> walker ctx; rs_g : ctx -> phase -> node -> list err; rs_u : ctx -> phase -> node -> ctx }.
Definition rsem_ok good (x : rsem) := sem good (rs_rule x) (rs_g x) (rs_u x).

(** The handlers, errors and context changes of a list of rules. *)
Fixpoint Gs (xs : list rsem) (c : ctx) (ph : phase) (n : node) : list err :=
  match xs with [] => [] | x :: xs => rs_g x c ph n ++ Gs xs (rs_u x c ph n) ph n end.
Fixpoint Us (xs : list rsem) (c : ctx) (ph : phase) (n : node) : ctx :=
  match xs with [] => c | x :: xs => Us xs (rs_u x c ph n) ph n end.
Fixpoint Ge (xs : list rsem) (c : ctx) (es : list (phase * node)) : list err :=
  match es with [] => [] | (ph, n) :: es => Gs xs c ph n ++ Ge xs (Us xs c ph n) es end.
Fixpoint Ue (xs : list rsem) (c : ctx) (es : list (phase * node)) : ctx :=
  match es with [] => c | (ph, n) :: es => Ue xs (Us xs c ph n) es end.

Section Walk.
Variable good : ctx -> Prop.
Hypothesis good_set : forall e c, good c -> good (set_errors e c).

Lemma emit_u x es c ph n : rsem_ok good x -> rs_u x (emit es c) ph n = emit es (rs_u x c ph n).
Proof.
  intros S. unfold emit. rewrite (sem_u _ _ _ _ S), (sem_errs _ _ _ _ S). reflexivity.
Qed.
Lemma new_walker_ext (xs : list rsem) : Forall (rsem_ok good) xs -> forall w ph t,
  fold_left (fun w f => f w) (map rs_rule xs) w ph t = w ph t ++ flat_map (fun x => rs_rule x empty_walker ph t) xs.
Proof.
  induction 1 as [|x xs S _ IH]; intros w ph t; cbn [map fold_left flat_map]; [symmetry; apply app_nil_r|].
  rewrite IH, (sem_ext _ _ _ _ S w), <- app_assoc. reflexivity.
Qed.
Lemma on_rules xs : Forall (rsem_ok good) xs -> forall c es ph n, good c ->
  on_node (flat_map (fun x => rs_rule x empty_walker ph (ntype_of n)) xs) (emit es c) n = emit (es ++ Gs xs c ph n) (Us xs c ph n) /\ good (Us xs c ph n).
Proof.
  induction 1 as [|x xs S _ IH]; intros c es ph n Hg; cbn [flat_map Gs Us].
  - rewrite app_nil_r. split; [reflexivity|exact Hg].
  - unfold on_node. rewrite fold_left_app. change (fold_left (fun c h => h c n) ?l ?c0) with (on_node l c0 n) at 2.
    rewrite (sem_run _ _ _ _ S) by (apply good_set, Hg). rewrite emit_u by exact S.
    assert (Eg : rs_g x (emit es c) ph n = rs_g x c ph n) by apply (sem_g _ _ _ _ S). rewrite Eg.
    rewrite emit_app. rewrite app_assoc. apply IH. exact (sem_good _ _ _ _ S c ph n Hg).
Qed.
Lemma walk_emits xs : Forall (rsem_ok good) xs -> forall es c acc, good c ->
  run_events (new_walker (map rs_rule xs)) es (emit acc c) = emit (acc ++ Ge xs c es) (Ue xs c es).
Proof.
  intros F. induction es as [|[ph n] es IH]; intros c acc Hg; cbn [Ge Ue]; [rewrite app_nil_r; reflexivity|].
  change (run_events (new_walker (map rs_rule xs)) ((ph, n) :: es) (emit acc c)) with (run_events (new_walker (map rs_rule xs)) es (step (new_walker (map rs_rule xs)) (emit acc c) (ph, n))).
  unfold step, new_walker. cbn [fst snd]. rewrite (new_walker_ext xs F). cbn [empty_walker app].
  destruct (on_rules xs F c acc ph n Hg) as [E Hg']. unfold on_node in E. rewrite E. fold (@new_walker ctx (map rs_rule xs)). rewrite IH by exact Hg'. rewrite app_assoc. reflexivity.
Qed.
Lemma walk_errors xs : Forall (rsem_ok good) xs -> forall d c, good c -> c_errors (walk (new_walker (map rs_rule xs)) d c) = rev (Ge xs c (events (tDocument d))) ++ c_errors c.
Proof.
  intros F d c Hg. rewrite walk_run. rewrite <- (emit_nil c) at 1. rewrite (walk_emits xs F _ c [] Hg). cbn [app emit c_errors set_errors].
  f_equal. generalize (events (tDocument d)) as es. intros es. clear Hg. revert c. induction es as [|[ph n] es IH]; intros c; cbn [Ue]; [reflexivity|]. rewrite IH.
  clear IH es. revert c. induction F as [|x xs S _ IH]; intros c; cbn [Us]; [reflexivity|]. rewrite IH. apply (sem_errs _ _ _ _ S).
Qed.
Lemma walk_crash xs : Forall (rsem_ok good) xs -> forall d c, good c -> c_crash (walk (new_walker (map rs_rule xs)) d c) = c_crash (Ue xs c (events (tDocument d))).
Proof. intros F d c Hg. rewrite walk_run. rewrite <- (emit_nil c) at 1. rewrite (walk_emits xs F _ c [] Hg). reflexivity. Qed.
End Walk.

(** Rules that do not change the context. *)
Definition still (c : ctx) (ph : phase) (n : node) : ctx := c.
Lemma Us_still xs c ph n : Forall (fun x => rs_u x = still) xs -> Us xs c ph n = c.
Proof. induction 1 as [|x xs E _ IH]; cbn; [reflexivity|]. rewrite E. apply IH. Qed.
Lemma Gs_still xs c ph n : Forall (fun x => rs_u x = still) xs -> Gs xs c ph n = flat_map (fun x => rs_g x c ph n) xs.
Proof. induction 1 as [|x xs E _ IH]; cbn; [reflexivity|]. rewrite E. unfold still. rewrite IH. reflexivity. Qed.
Lemma Ge_still xs c es : Forall (fun x => rs_u x = still) xs -> Ge xs c es = flat_map (fun e => flat_map (fun x => rs_g x c (fst e) (snd e)) xs) es.
Proof.
  intros F. induction es as [|[ph n] es IH]; cbn; [reflexivity|]. rewrite Us_still, Gs_still, IH by exact F. reflexivity.
Qed.
Lemma Ue_still xs c es : Forall (fun x => rs_u x = still) xs -> Ue xs c es = c.
Proof. intros F. induction es as [|[ph n] es IH]; cbn; [reflexivity|]. rewrite Us_still by exact F. exact IH. Qed.

(** ** The semantics of each rule *)
Definition enter (f : ctx -> node -> list err) (c : ctx) (ph : phase) (n : node) : list err := match ph with Enter => f c n | Leave => [] end.
Definition leave (f : ctx -> node -> list err) (c : ctx) (ph : phase) (n : node) : list err := match ph with Enter => [] | Leave => f c n end.

Definition g_exec (c : ctx) (n : node) : list err :=
  match n with
  | NDefinition _ d => match def_body d with DOp _ | DFrag _ => [] | b => [ENonExecutable (definition_name b)] end
  | _ => []
  end.
Definition g_anon (c : ctx) (n : node) : list err :=
  match n with NOperation o => if beqb (o_name o) [] && Nat.ltb 1 (n_ops (c_doc c)) then [EAnonNotAlone] else [] | _ => [] end.
Definition known_type (c : ctx) (t : bytes) : bool :=
  mem t (sc_types (c_schema c)) || match c_sdl c with Some s => mem t (sd_types s) | None => false end || is_specified_scalar t.
Definition g_types (c : ctx) (n : node) : list err :=
  match n with NNamedType (TNamed t _) => if known_type c t then [] else [EUnknownType t] | _ => [] end.
Definition g_unused (c : ctx) (n : node) : list err :=
  match n with
  | NExecutable i (DOp o) => flat_map (fun v => if match recursive_variable_usages c i with Some l => inb (v_name v) l | None => false end
                                                 then [] else [EUnusedVariable (v_name v) (o_name o)]) (o_vars o)
  | _ => []
  end.
Definition find_directive (c : ctx) (n : bytes) : option dirdef :=
  match mget n (sc_dirs (c_schema c)) with
  | Some x => Some x
  | None => match match c_sdl c with Some s => mget n (sd_dirs s) | None => None end with Some x => Some x | None => mget n specified_directives end
  end.
Definition g_dirs (c : ctx) (n : node) : list err :=
  match n with
  | NDirective d => match find_directive c (d_name d) with
                    | None => [EUnknownDirective (d_name d)]
                    | Some x => if N.eqb (N.land (dd_locs x) (d_loc d)) 0 then [EMisplaced (d_name d) (d_loc d)] else []
                    end
  | _ => []
  end.
Definition g_udirs (c : ctx) (n : node) : list err :=
  match n with NDirectives l => map EDupDirective (repeats (map d_name l)) | _ => [] end.
Definition g_uargs (c : ctx) (n : node) : list err :=
  match n with
  | NFieldSelection (SField _ _ args _ _) => map EDupArg (repeats (map arg_name args))
  | NDirective d => map EDupArg (repeats (map arg_name (d_args d)))
  | NFieldDefinition f => map EDupArg (repeats (map i_name (fd_args f)))
  | NDirectiveDefinition d => map EDupArg (repeats (map i_name (dd_args d)))
  | _ => []
  end.
Definition g_uinput (c : ctx) (n : node) : list err :=
  match n with NObjectValue (VObject fs) => map EDupInputField (repeats (map fst fs)) | _ => [] end.
Definition g_kargs (c : ctx) (n : node) : list err :=
  match n with
  | NDirective d =>
      match c_sdl c with
      | None => []
      | Some s => match ctx_directive c s (d_name d) with
                  | None => []
                  | Some def => match d_args d with
                                | [] => []
                                | a :: r => (if inb (arg_name a) (map i_name (dd_args def)) then [] else [EUnknownDirArg (arg_name a) (d_name d)]) ++
                                            map (fun a => EUnknownDirArg (arg_name a) (d_name d)) r
                                end
                  end
      end
  | _ => []
  end.
Definition g_names (c : ctx) (n : node) : list err :=
  let chk s := if is_valid_name s then [] else [ETwoUnderscores s] in
  match n with
  | NTypeDefinition t => chk (t_name t) | NFieldDefinition f => chk (fd_name f) | NDirectiveDefinition d => chk (dd_name d)
  | NInputValueDefinition i => chk (i_name i) | _ => []
  end.
Definition g_ext (c : ctx) (n : node) : list err :=
  match n with
  | NTypeExtension x =>
      match c_sdl c with
      | None => []
      | Some s => match ctx_type c s (t_name x) with
                  | Some def => if tkind_eqb (t_kind x) (t_kind def) then [] else [EExtendKind (t_name x) (kind_string (t_kind def))]
                  | None => [EExtendUnknown (t_name x)]
                  end
      end
  | _ => []
  end.
Definition g_required (c : ctx) (n : node) : list err :=
  match n with
  | NDirective d =>
      match find_directive c (d_name d) with
      | None => []
      | Some def => flat_map (fun iv => if negb (inb (i_name iv) (map arg_name (d_args d))) && match i_default iv with None => true | Some _ => false end && ty_nonnull (i_type iv)
                                        then [EMissingArg (d_name d) (i_name iv) (ty_string (i_type iv))] else []) (dd_args def)
      end
  | _ => []
  end.
(** Operation types: the kinds seen so far are the flags. *)
Definition mark_all (os : list opkind) (c : ctx) : ctx :=
  match c_sdl c with None => c | Some s => set_sdl (Some (fold_left (fun s o => with_flag o s) os s)) c end.
Fixpoint repeats_kind (seen l : list opkind) : list opkind :=
  match l with [] => [] | o :: l => (if existsb (opkind_eqb o) seen then [o] else []) ++ repeats_kind (o :: seen) l end.
Fixpoint ext_errors (sch : schema) (s : sdl) (l : list opkind) : list err :=
  match l with
  | [] => []
  | o :: l => (match schema_op sch o with
               | Some _ => [EExistedOperationType (op_string o)]
               | None => if flag o s then [EDupOperationType (op_string o)] else []
               end) ++ ext_errors sch (with_flag o s) l
  end.
Definition g_optypes (c : ctx) (n : node) : list err :=
  match n with
  | NSchemaDefinition x => map (fun o => EDupOperationType (op_string o)) (repeats_kind [] (map ot_op (s_ops x)))
  | NSchemaExtension x => match c_sdl c with None => [] | Some s => ext_errors (c_schema c) s (map ot_op (s_ops x)) end
  | _ => []
  end.
Definition u_optypes (c : ctx) (ph : phase) (n : node) : ctx :=
  match ph, n with
  | Leave, NSchemaDefinition x | Leave, NSchemaExtension x => mark_all (map ot_op (s_ops x)) c
  | _, _ => c
  end.

(** *** Proofs *)
Lemma add_ext ph t h (w : walker ctx) ph' t' : add_handler ph t h w ph' t' = w ph' t' ++ add_handler ph t h empty_walker ph' t'.
Proof.
  unfold add_handler. destruct (phase_eq_dec ph ph'); [destruct (ntype_eq_dec t t')|]; cbn; rewrite ?app_nil_r; reflexivity.
Qed.
Lemma on_add ph t h c n : on_node (add_handler ph t h empty_walker ph t) c n = h c n.
Proof. unfold add_handler, on_node. destruct (phase_eq_dec ph ph); [|congruence]. destruct (ntype_eq_dec t t); [reflexivity|congruence]. Qed.
Lemma still_sem (good : ctx -> Prop) r g : (forall w ph t, r w ph t = w ph t ++ r empty_walker ph t) ->
  (forall c ph n, good c -> on_node (r empty_walker ph (ntype_of n)) c n = emit (g c ph n) c) ->
  (forall e c ph n, g (set_errors e c) ph n = g c ph n) -> sem good r g still.
Proof. intros H1 H2 H3. constructor; auto. Qed.

Lemma rvu_set e c i : recursive_variable_usages (set_errors e c) i = recursive_variable_usages c i.
Proof.
  unfold recursive_variable_usages. f_equal. change (ctx_fuel (set_errors e c)) with (ctx_fuel c). generalize (@nil bytes, @nil nat) as st. generalize (ctx_fuel c) as fuel.
  intros fuel. revert i. induction fuel as [|f IH]; intros i st; [reflexivity|]. cbn [rvu]. apply fold_ext. intros [[agg seen]|] rd; [|reflexivity].
  destruct (inNat rd seen); [reflexivity|]. apply IH.
Qed.

Ltac triv := intros; match goal with n : node, ph : phase |- _ => destruct ph; destruct n; cbn; try (symmetry; apply emit_nil) end.
Lemma sem_ExecutableDefinitions good : sem good ExecutableDefinitions (enter g_exec) still.
Proof.
  apply still_sem; [intros; apply add_ext| |intros; destruct ph; reflexivity].
  triv. destruct (def_body d); try (symmetry; apply emit_nil); apply emit_one.
Qed.
Lemma sem_LoneAnonymousOperation good : sem good LoneAnonymousOperation (enter g_anon) still.
Proof.
  apply still_sem; [intros; apply add_ext| |intros; destruct ph; reflexivity].
  triv. destruct (beqb (o_name o) [] && _); [apply emit_one|symmetry; apply emit_nil].
Qed.
Lemma sem_KnownTypeNames good : sem good KnownTypeNames (enter g_types) still.
Proof.
  apply still_sem; [intros; apply add_ext| |intros; destruct ph; reflexivity].
  triv. destruct t; cbn; try (symmetry; apply emit_nil). unfold known_type. rewrite <- !negb_orb. destruct (_ || _); cbn; [symmetry; apply emit_nil|apply emit_one].
Qed.
Definition goodq (c : ctx) : Prop := c_sdl c = None /\ forall i, recursive_variable_usages c i <> None.
Lemma sem_NoUnusedVariables : sem goodq NoUnusedVariables (leave g_unused) still.
Proof.
  apply still_sem; [intros; apply add_ext| |].
  - intros c ph n [_ Hg]. destruct ph; destruct n; cbn; try (symmetry; apply emit_nil). destruct b; cbn; try (symmetry; apply emit_nil).
    specialize (Hg i). destruct (recursive_variable_usages c i) as [l|]; [|congruence].
    apply each_emit. intros x c' _. destruct (inb (v_name x) l); [symmetry; apply emit_nil|apply emit_one].
  - intros. destruct ph; [reflexivity|]. cbn. destruct n; try reflexivity. destruct b; try reflexivity. cbn. rewrite rvu_set. reflexivity.
Qed.
Lemma sem_KnownDirectives good : sem good KnownDirectives (enter g_dirs) still.
Proof.
  apply still_sem; [intros; apply add_ext| |intros; destruct ph; reflexivity].
  intros c ph n _. destruct ph; destruct n; try (symmetry; apply emit_nil).
  change (match find_directive c (d_name d) with None => add_error (EUnknownDirective (d_name d)) c
          | Some x => if N.eqb (N.land (dd_locs x) (d_loc d)) 0 then add_error (EMisplaced (d_name d) (d_loc d)) c else c end =
          emit (match find_directive c (d_name d) with None => [EUnknownDirective (d_name d)]
                    | Some x => if N.eqb (N.land (dd_locs x) (d_loc d)) 0 then [EMisplaced (d_name d) (d_loc d)] else [] end) c).
  destruct (find_directive c (d_name d)); [|apply emit_one]. destruct (N.eqb _ _); [apply emit_one|symmetry; apply emit_nil].
Qed.
Lemma sem_UniqueDirectivesPerLocation good : sem good UniqueDirectivesPerLocation (enter g_udirs) still.
Proof.
  apply still_sem; [intros; apply add_ext| |intros; destruct ph; reflexivity].
  triv. apply unique_loop_emit.
Qed.
Lemma sem_UniqueArgumentNames good : sem good UniqueArgumentNames (enter g_uargs) still.
Proof.
  apply still_sem; [| |intros; destruct ph; reflexivity].
  - intros. unfold UniqueArgumentNames. do 4 (rewrite add_ext; rewrite (add_ext _ _ _ (add_handler _ _ _ _))). rewrite <- ?app_assoc. reflexivity.
  - triv; try apply unique_loop_emit. destruct s; cbn; try (symmetry; apply emit_nil). apply unique_loop_emit.
Qed.
Lemma sem_UniqueInputFieldNames good : sem good UniqueInputFieldNames (enter g_uinput) still.
Proof.
  apply still_sem; [intros; apply add_ext| |intros; destruct ph; reflexivity].
  triv. destruct v; cbn; try (symmetry; apply emit_nil). apply unique_loop_emit.
Qed.

Definition goods (c : ctx) : Prop := c_sdl c <> None.
Lemma scan_inb a l : scan_args a l = inb a (map i_name l).
Proof. induction l as [|x l IH]; cbn; [reflexivity|]. rewrite IH. destruct (beqb a (i_name x)); reflexivity. Qed.
Lemma sem_KnownArgumentNames : sem goods KnownArgumentNamesOnDirectives (enter g_kargs) still.
Proof.
  apply still_sem; [intros; apply add_ext| |intros; destruct ph; reflexivity].
  unfold goods. intros c ph n Hg. destruct ph; destruct n; cbn; try (symmetry; apply emit_nil).
  destruct (c_sdl c) as [s|] eqn:Es; [|congruence]. destruct (d_args d) as [|a r] eqn:Ea; [destruct (ctx_directive c s (d_name d)); symmetry; apply emit_nil|].
  destruct (ctx_directive c s (d_name d)) as [def|]; [|symmetry; apply emit_nil]. cbn [fold_left fst snd].
  rewrite scan_inb. assert (G : forall es, snd (fold_left (fun st a => ([], if scan_args (arg_name a) (fst st) then snd st else add_error (EUnknownDirArg (arg_name a) (d_name d)) (snd st)))
     r ([] : list ivdef, emit es c)) = emit (es ++ map (fun a => EUnknownDirArg (arg_name a) (d_name d)) r) c).
  { clear. induction r as [|a r IH]; intros es; cbn [fold_left map]; [rewrite app_nil_r; reflexivity|]. cbn [fst snd scan_args]. rewrite emit_one, emit_app, IH, <- app_assoc. reflexivity. }
  destruct (inb (arg_name a) (map i_name (dd_args def))); [rewrite <- (emit_nil c) at 1; apply (G [])|]. rewrite emit_one. apply G.
Qed.
Lemma sem_PossibleNames good : sem good PossibleNames (enter g_names) still.
Proof.
  apply still_sem; [| |intros; destruct ph; reflexivity].
  - intros. unfold PossibleNames. do 4 (rewrite add_ext; rewrite (add_ext _ _ _ (add_handler _ _ _ _))). rewrite <- ?app_assoc. reflexivity.
  - triv; unfold check_name; destruct (is_valid_name _); try (symmetry; apply emit_nil); apply emit_one.
Qed.
Lemma sem_PossibleTypeExtensions : sem goods PossibleTypeExtensions (enter g_ext) still.
Proof.
  apply still_sem; [intros; apply add_ext| |intros; destruct ph; reflexivity].
  unfold goods. intros c ph n Hg. destruct ph; destruct n; cbn; try (symmetry; apply emit_nil). destruct (c_sdl c) as [s|]; [|congruence].
  destruct (ctx_type c s (t_name t)); [destruct (tkind_eqb _ _); [symmetry; apply emit_nil|apply emit_one]|apply emit_one].
Qed.
Lemma sem_ProvidedRequired : sem goods ProvidedRequiredArgumentsOnDirectives (enter g_required) still.
Proof.
  apply still_sem; [intros; apply add_ext| |intros; destruct ph; reflexivity].
  unfold goods. intros c ph n Hg. destruct ph; destruct n; try (symmetry; apply emit_nil).
  assert (E : forall def, each (fun iv c => if negb (inb (i_name iv) (map arg_name (d_args d))) && (match i_default iv with None => true | Some _ => false end) && ty_nonnull (i_type iv)
              then add_error (EMissingArg (d_name d) (i_name iv) (ty_string (i_type iv))) c else c) (dd_args def) c =
    emit (flat_map (fun iv => if negb (inb (i_name iv) (map arg_name (d_args d))) && match i_default iv with None => true | Some _ => false end && ty_nonnull (i_type iv)
                                        then [EMissingArg (d_name d) (i_name iv) (ty_string (i_type iv))] else []) (dd_args def)) c).
  { intros def. apply each_emit. intros x c' _. destruct (negb _ && _ && _); [apply emit_one|symmetry; apply emit_nil]. }
  cbn [ntype_of]. unfold ProvidedRequiredArgumentsOnDirectives. rewrite on_add. cbn [enter g_required]. unfold find_directive.
  destruct (mget (d_name d) (sc_dirs (c_schema c))); [apply E|]. destruct (c_sdl c) as [s|]; [|congruence].
  destruct (mget (d_name d) (sd_dirs s)); [apply E|]. destruct (mget (d_name d) specified_directives); [apply E|symmetry; apply emit_nil].
Qed.
Lemma sem_UniqueOperationTypes : sem goods UniqueOperationTypes (leave g_optypes) u_optypes.
Proof.
  constructor.
  - intros. unfold UniqueOperationTypes. rewrite (add_ext _ _ _ (add_handler _ _ _ w)), (add_ext _ _ _ w), (add_ext _ _ _ (add_handler _ _ _ empty_walker)), <- app_assoc. reflexivity.
  - unfold goods. intros c ph n Hg. destruct ph; destruct n; cbn; try (symmetry; apply emit_nil).
    + (* definition *)
      unfold mark_all. destruct (c_sdl c) as [sd|] eqn:Es; [|congruence].
      assert (G : forall l seen es sd, snd (fold_left (fun st ot => let c := if existsb (opkind_eqb (ot_op ot)) (fst st) then add_error (EDupOperationType (op_string (ot_op ot))) (snd st) else snd st in
          (ot_op ot :: fst st, mark (ot_op ot) c)) l (seen, emit es (set_sdl (Some sd) c))) =
        emit (es ++ map (fun o => EDupOperationType (op_string o)) (repeats_kind seen (map ot_op l))) (set_sdl (Some (fold_left (fun s o => with_flag o s) (map ot_op l) sd)) c)).
      { clear. induction l as [|x l IH]; intros seen es sd; cbn [fold_left map repeats_kind]; [rewrite app_nil_r; reflexivity|]. cbn [fst snd]. cbv zeta.
        destruct (existsb (opkind_eqb (ot_op x)) seen); cbn [map app].
        - rewrite emit_one, emit_app. change (mark (ot_op x) (emit (es ++ [EDupOperationType (op_string (ot_op x))]) (set_sdl (Some sd) c))) with
            (emit (es ++ [EDupOperationType (op_string (ot_op x))]) (set_sdl (Some (with_flag (ot_op x) sd)) c)). rewrite IH, <- app_assoc. reflexivity.
        - change (mark (ot_op x) (emit es (set_sdl (Some sd) c))) with (emit es (set_sdl (Some (with_flag (ot_op x) sd)) c)). apply IH. }
      specialize (G (s_ops s) [] [] sd). cbn [app] in G. rewrite <- G. f_equal. f_equal. f_equal. rewrite emit_nil. destruct c; cbn in *; rewrite Es; reflexivity.
    + unfold mark_all. destruct (c_sdl c) as [sd|] eqn:Es; [|congruence].
      assert (G : forall l es sd, each (fun ot c => match c_sdl c with None => crash c | Some s => mark (ot_op ot)
                match schema_op (c_schema c) (ot_op ot) with
                | Some _ => add_error (EExistedOperationType (op_string (ot_op ot))) c
                | None => if flag (ot_op ot) s then add_error (EDupOperationType (op_string (ot_op ot))) c else c
                end end) l (emit es (set_sdl (Some sd) c)) =
        emit (es ++ ext_errors (c_schema c) sd (map ot_op l)) (set_sdl (Some (fold_left (fun s o => with_flag o s) (map ot_op l) sd)) c)).
      { clear. unfold each. induction l as [|x l IH]; intros es sd; cbn [fold_left map ext_errors]; [rewrite app_nil_r; reflexivity|].
        change (c_sdl (emit es (set_sdl (Some sd) c))) with (Some sd). cbv iota beta. change (c_schema (emit es (set_sdl (Some sd) c))) with (c_schema c).
        assert (M : forall es', mark (ot_op x) (emit es' (set_sdl (Some sd) c)) = emit es' (set_sdl (Some (with_flag (ot_op x) sd)) c)) by reflexivity.
        rewrite app_assoc, <- IH. f_equal. destruct (schema_op (c_schema c) (ot_op x)); [rewrite emit_one, emit_app; apply M|].
        destruct (flag (ot_op x) sd); [rewrite emit_one, emit_app; apply M|]. rewrite app_nil_r. apply M. }
      specialize (G (s_ops s) [] sd). cbn [app] in G. rewrite <- G. f_equal. rewrite emit_nil. destruct c; cbn in *; rewrite Es; reflexivity.
  - intros. destruct ph; reflexivity.
  - intros. destruct ph; [reflexivity|]. destruct n; try reflexivity; cbn; unfold mark_all; cbn [c_sdl set_errors]; destruct (c_sdl c); reflexivity.
  - intros. destruct ph; [reflexivity|]. destruct n; try reflexivity; cbn; unfold mark_all; destruct (c_sdl c); reflexivity.
  - unfold goods. intros. destruct ph; [assumption|]. destruct n; try assumption; cbn; unfold mark_all; destruct (c_sdl c) eqn:E; cbn; congruence.
Qed.
