(** * Restyle: a document with other field names, aliases and literal values (for C54), and what validation makes of it. *)
From Verif Require Import Base AST Walker WalkSpec Context Rules.

(** Other names and aliases for the selected fields, other literals in the place of the literals, other !s on types. *)
Record style := mkStyle { st_name : bytes -> bytes; st_alias : bytes -> bytes; st_literal : value -> value; st_required : bool -> bool }.
Definition literal (v : value) : Prop := match v with VVar _ | VList _ | VObject _ => False | _ => True end.
Definition proper_style (x : style) : Prop := forall v, literal v -> literal (st_literal x v).

Section restyle.
Variable x : style.
Fixpoint r_value (v : value) : value :=
  match v with
  | VVar n => VVar n
  | VList l => VList (map r_value l)
  | VObject fs => VObject (map (fun f => (fst f, r_value (snd f))) fs)
  | VInt _ | VFloat _ | VString _ | VBool _ | VNull | VEnum _ => st_literal x v
  end.
Fixpoint r_ty (t : ty) : ty := match t with TNamed n b => TNamed n (st_required x b) | TList t b => TList (r_ty t) (st_required x b) | TListNil => TListNil end.
Definition r_arg (a : argument) := mkArg (arg_name a) (r_value (arg_value a)).
Definition r_dir (d : directive) := mkDir (d_name d) (map r_arg (d_args d)) (d_loc d).
Fixpoint r_sel (s : selection) : selection :=
  match s with
  | SField alias name args dirs sels => SField (st_alias x alias) (st_name x name) (map r_arg args) (map r_dir dirs) (map r_sel sels)
  | SSpread name dirs => SSpread name (map r_dir dirs)
  | SInline cond dirs sels => SInline (option_map r_ty cond) (map r_dir dirs) (map r_sel sels)
  end.
Definition r_var (v : vardef) := mkVar (v_name v) (r_ty (v_type v)) (option_map r_value (v_default v)).
Definition r_op (o : opdef) := mkOp (o_kind o) (o_name o) (map r_var (o_vars o)) (map r_dir (o_dirs o)) (map r_sel (o_sels o)).
Definition r_frag (f : fragdef) := mkFrag (f_name f) (r_ty (f_cond f)) (map r_dir (f_dirs f)) (map r_sel (f_sels f)).
Definition r_iv (i : ivdef) := mkIv (i_desc i) (i_name i) (r_ty (i_type i)) (option_map r_value (i_default i)) (map r_dir (i_dirs i)).
Definition r_fd (f : fielddef) := mkFd (fd_desc f) (fd_name f) (map r_iv (fd_args f)) (r_ty (fd_type f)) (map r_dir (fd_dirs f)).
Definition r_ev (e : enumval) := mkEv (ev_desc e) (ev_name e) (map r_dir (ev_dirs e)).
Definition r_td (t : tydef) := mkTd (t_kind t) (t_desc t) (t_name t) (map r_ty (t_impl t)) (map r_dir (t_dirs t)) (map r_fd (t_fields t)) (map r_ty (t_members t)) (map r_ev (t_values t)) (map r_iv (t_inputs t)).
Definition r_ot (o : optype) := mkOt (ot_op o) (r_ty (ot_type o)).
Definition r_sd (s : schemadef) := mkSd (map r_dir (s_dirs s)) (map r_ot (s_ops s)).
Definition r_dd (d : dirdef) := mkDd (dd_desc d) (dd_name d) (map r_iv (dd_args d)) (dd_locs d).
Definition r_body (b : body) : body :=
  match b with
  | DOp o => DOp (r_op o) | DFrag f => DFrag (r_frag f) | DSchema s => DSchema (r_sd s) | DType t => DType (r_td t) | DDir d => DDir (r_dd d)
  | XSchema s => XSchema (r_sd s) | XType t => XType (r_td t)
  end.
Definition r_def (d : definition) := mkDef (def_line d) (def_col d) (r_body (def_body d)).
Definition restyle (d : document) : document :=
  mkDoc (map r_def (doc_defs d)) (n_ops d) (n_frags d) (n_dirdefs d) (n_schemas d) (n_types d) (n_schemaexts d) (n_typeexts d).

(** ** Nodes and events *)
Definition leaf (v : value) : node :=
  match v with
  | VBool _ => NBooleanValue v | VEnum _ => NEnumValue v | VFloat _ => NFloatValue v | VInt _ => NIntValue v | VString _ => NStringValue v
  | _ => NNullValue v
  end.
Definition r_node (n : node) : node :=
  match n with
  | NDocument d => NDocument (restyle d) | NDefinitions l => NDefinitions (map r_def l) | NDefinition i d => NDefinition i (r_def d)
  | NExecutable i b => NExecutable i (r_body b) | NTypeSystem b => NTypeSystem (r_body b) | NTypeSystemExt b => NTypeSystemExt (r_body b)
  | NOperation o => NOperation (r_op o) | NOperationKind k o => NOperationKind k (r_op o) | NFragment f => NFragment (r_frag f)
  | NTypeCondition t => NTypeCondition (r_ty t) | NVariableDefinitions l => NVariableDefinitions (map r_var l) | NVariableDefinition v => NVariableDefinition (r_var v)
  | NSelections l => NSelections (map r_sel l) | NSelection s => NSelection (r_sel s) | NFieldSelection s => NFieldSelection (r_sel s)
  | NFragmentSpread s => NFragmentSpread (r_sel s) | NInlineFragment s => NInlineFragment (r_sel s)
  | NArguments l => NArguments (map r_arg l) | NArgument a => NArgument (r_arg a) | NDirectives l => NDirectives (map r_dir l) | NDirective d => NDirective (r_dir d)
  | NValue v => NValue (r_value v)
  | NBooleanValue v | NEnumValue v | NFloatValue v | NIntValue v | NNullValue v | NStringValue v => leaf (r_value v)
  | NListValue v => NListValue (r_value v) | NObjectValue v => NObjectValue (r_value v) | NVariableValue v => NVariableValue (r_value v)
  | NObjectField f => NObjectField (fst f, r_value (snd f))
  | NTypes l => NTypes (map r_ty l) | NType t => NType (r_ty t) | NListType t => NListType (r_ty t) | NNamedType t => NNamedType (r_ty t)
  | NDirectiveDefinition d => NDirectiveDefinition (r_dd d) | NSchemaDefinition s => NSchemaDefinition (r_sd s) | NSchemaExtension s => NSchemaExtension (r_sd s)
  | NOperationTypeDefinitions l => NOperationTypeDefinitions (map r_ot l) | NOperationTypeDefinition o => NOperationTypeDefinition (r_ot o)
  | NTypeDefinition t => NTypeDefinition (r_td t) | NTypeDefinitionKind k t => NTypeDefinitionKind k (r_td t)
  | NTypeExtension t => NTypeExtension (r_td t) | NTypeExtensionKind k t => NTypeExtensionKind k (r_td t)
  | NFieldDefinitions l => NFieldDefinitions (map r_fd l) | NFieldDefinition f => NFieldDefinition (r_fd f)
  | NInputValueDefinitions l => NInputValueDefinitions (map r_iv l) | NInputValueDefinition i => NInputValueDefinition (r_iv i)
  | NEnumValueDefinitions l => NEnumValueDefinitions (map r_ev l) | NEnumValueDefinition e => NEnumValueDefinition (r_ev e)
  end.
Hypothesis Hx : proper_style x.
Lemma nonnil_map {A B} (f : list B -> node) (h : list A -> node) g (l : list A) : (forall l, f (map g l) = r_node (h l)) -> nonnil f (map g l) = map r_node (nonnil h l).
Proof. intros E. destruct l as [|a l]; [reflexivity|]. cbn [nonnil map]. rewrite <- E. reflexivity. Qed.
Lemma some_map {A B} (f : B -> node) (h : A -> node) g (o : option A) : (forall a, f (g a) = r_node (h a)) -> some f (option_map g o) = map r_node (some h o).
Proof. intros E. destruct o as [a|]; [|reflexivity]. cbn. rewrite <- E. reflexivity. Qed.
Lemma map_comm {A B} (f : B -> node) (h : A -> node) g (l : list A) : (forall a, f (g a) = r_node (h a)) -> map f (map g l) = map r_node (map h l).
Proof. intros E. rewrite !map_map. apply map_ext. intros a. apply E. Qed.
Lemma leaf_kids v : kids (leaf v) = []. Proof. destruct v; reflexivity. Qed.
Lemma value_kids v : kids (NValue (r_value v)) = map r_node (kids (NValue v)).
Proof. destruct v as [n|z|l|s|b| |n|l|fs]; cbn [r_value]; try reflexivity; (match goal with |- kids (NValue (st_literal x ?v)) = _ => assert (L : literal (st_literal x v)) by (apply Hx; exact I); cbn [kids map r_node r_value]; destruct (st_literal x v); try contradiction; reflexivity end). Qed.
Lemma sel_kids s : kids (NFieldSelection (r_sel s)) = map r_node (kids (NFieldSelection s)).
Proof.
  destruct s as [a n args dirs sels|n dirs|cond dirs sels]; cbn [r_sel kids]; rewrite ?map_app;
  repeat (apply f_equal2 || (apply nonnil_map; reflexivity) || reflexivity).
  destruct cond; reflexivity.
Qed.
Lemma kids_restyle n : kids (r_node n) = map r_node (kids n).
Proof.
  assert (Hn : forall ds k, map (fun p => NDefinition (fst p) (snd p)) (combine (seq k (List.length (map r_def ds))) (map r_def ds)) = map r_node (map (fun p => NDefinition (fst p) (snd p)) (combine (seq k (List.length ds)) ds))).
  { induction ds as [|d ds IH]; intros k; [reflexivity|]. cbn [map List.length seq combine]. rewrite IH. reflexivity. }
  destruct n; try reflexivity; try (exact (leaf_kids _)); try (apply value_kids); cbn [r_node kids restyle doc_defs r_op r_frag r_td r_sd r_dd r_fd r_iv r_ev r_dir r_arg o_vars o_dirs o_sels f_cond f_dirs f_sels d_args arg_value t_kind t_impl t_dirs t_fields t_members t_values t_inputs dd_args fd_args fd_type fd_dirs i_type i_dirs i_default ev_dirs s_dirs s_ops v_type v_default r_var];
    rewrite ?map_app; cbn [map];
    try (repeat (apply f_equal2 || (apply nonnil_map; reflexivity) || (apply some_map; reflexivity) || (apply map_comm; reflexivity) || reflexivity); fail).
  - apply Hn.
  - destruct d as [l c b]. destruct b; reflexivity.
  - destruct b; reflexivity.
  - destruct b; reflexivity.
  - destruct b; reflexivity.
  - destruct s; reflexivity.
  - apply sel_kids.
  - apply sel_kids.
  - apply sel_kids.
  - destruct v; cbn [r_value]; try (apply map_comm; reflexivity); try reflexivity; (match goal with |- match st_literal x ?v with _ => _ end = _ => assert (L : literal (st_literal x v)) by (apply Hx; exact I); destruct (st_literal x v); try contradiction; reflexivity end).
  - destruct v; cbn [r_value]; try (apply map_comm; reflexivity); try reflexivity; (match goal with |- match st_literal x ?v with _ => _ end = _ => assert (L : literal (st_literal x v)) by (apply Hx; exact I); destruct (st_literal x v); try contradiction; reflexivity end).
  - destruct t; reflexivity.
  - destruct t; reflexivity.
Qed.
Fixpoint r_tree (t : tree) : tree := match t with Node n cs => Node (r_node n) (map r_tree cs) end.
Lemma tree_restyle t : ast_tree t -> ast_tree (r_tree t).
Proof.
  induction t as [n cs IH] using tree_nest. intros H. inversion H as [? ? K F]; subst. cbn [r_tree]. constructor.
  - rewrite kids_restyle, <- K, !map_map. apply map_ext. intros [m ds]. reflexivity.
  - clear K H. induction IH as [|c cs Hc _ IHc]; [constructor|]. inversion F; subst. cbn [map]. constructor; auto.
Qed.
Definition r_event (e : phase * node) : phase * node := (fst e, r_node (snd e)).
Lemma events_r t : events (r_tree t) = map r_event (events t).
Proof.
  induction t as [n cs IH] using tree_nest. cbn [r_tree events map]. rewrite map_app. f_equal. f_equal. induction IH as [|c cs Hc _ IHc]; [reflexivity|]. cbn [map flat_map]. rewrite Hc, IHc, map_app. reflexivity.
Qed.
Lemma events_restyle d : events (tDocument (restyle d)) = map r_event (events (tDocument d)).
Proof. rewrite <- events_r. f_equal. apply ast_tree_unique; [apply ok_document|apply tree_restyle, ok_document|reflexivity]. Qed.

(** ** Walkers *)
Definition rc (c : ctx) : ctx :=
  mkCtx (restyle (c_doc c)) (c_errors c) (c_schema c) (c_sdl c) (c_ops c) (map (fun e => (fst e, r_frag (snd e))) (c_frags c)) (c_refs c) (c_vars c) (c_exec c) (c_crash c).
Definition literal_type (t : ntype) : Prop := match t with TBooleanValue | TEnumValue | TFloatValue | TIntValue | TNullValue | TStringValue => True | _ => False end.
Definition deaf_h (h : handler ctx) : Prop := forall c n, h (rc c) (r_node n) = rc (h c n).
Definition deaf (w : walker ctx) : Prop := forall ph t, Forall deaf_h (w ph t) /\ (literal_type t -> w ph t = []).
Definition deaf_rule (r : walker ctx -> walker ctx) : Prop := forall w, deaf w -> deaf (r w).
Lemma type_restyle n : ntype_of (r_node n) = ntype_of n \/ literal_type (ntype_of n) /\ literal_type (ntype_of (r_node n)).
Proof. destruct n; try (left; reflexivity); right; (split; [exact I|]); cbn [r_node]; destruct (r_value v); exact I. Qed.
Lemma walk_restyle w d c : deaf w -> walk w (restyle d) (rc c) = rc (walk w d c).
Proof.
  intros H. rewrite !walk_run, events_restyle. generalize (events (tDocument d)) as es. intros es. revert c. induction es as [|[ph n] es IH]; intros c; [reflexivity|].
  cbn [map]. unfold run_events. cbn [fold_left]. fold (run_events w (map r_event es) (step w (rc c) (r_event (ph, n)))). fold (run_events w es (step w c (ph, n))).
  rewrite <- IH. f_equal. unfold step, r_event. cbn [fst snd]. destruct (type_restyle n) as [E|[L1 L2]].
  - rewrite E. destruct (H ph (ntype_of n)) as [F _]. revert c. induction F as [|h hs Hh _ IHh]; intros c; [reflexivity|]. cbn [fold_left]. rewrite Hh. apply IHh.
  - rewrite (proj2 (H ph (ntype_of n)) L1), (proj2 (H ph (ntype_of (r_node n))) L2). reflexivity.
Qed.
Lemma deaf_add ph t h : ~ literal_type t -> deaf_h h -> deaf_rule (add_handler ph t h).
Proof.
  intros Ht Hh w Hw ph' t'. unfold add_handler. destruct (phase_eq_dec ph ph'); [destruct (ntype_eq_dec t t')|]; try apply Hw. subst. destruct (Hw ph' t') as [F _]. split; [|intros L; destruct (Ht L)].
  apply Forall_app. split; [exact F|repeat constructor; exact Hh].
Qed.
Lemma deaf_new rs : Forall deaf_rule rs -> deaf (new_walker rs).
Proof.
  unfold new_walker. intros H. assert (deaf (@empty_walker ctx)) as E by (intros ph t; split; [constructor|reflexivity]). revert E. generalize (@empty_walker ctx) as w.
  induction H as [|r rs Hr _ IH]; intros w Hw; [exact Hw|]. apply IH, Hr, Hw.
Qed.
Lemma each_deaf {X} (f : X -> ctx -> ctx) l : (forall x c, f x (rc c) = rc (f x c)) -> forall c, each f l (rc c) = rc (each f l c).
Proof. intros H. unfold each. induction l as [|y l IH]; intros c; [reflexivity|]. cbn [fold_left]. rewrite H. apply IH. Qed.
Lemma unique_deaf mk l c : unique_loop mk l (rc c) = rc (unique_loop mk l c).
Proof.
  unfold unique_loop. generalize (@nil bytes) as seen. revert c. induction l as [|y l IH]; intros c seen; [reflexivity|]. cbn [fold_left fst snd].
  destruct (inb y seen); [exact (IH (add_error (mk y) c) seen)|apply IH].
Qed.
Lemma rvu_rc c i : recursive_variable_usages (rc c) i = recursive_variable_usages c i.
Proof.
  unfold recursive_variable_usages. f_equal. assert (E : ctx_fuel (rc c) = ctx_fuel c) by (unfold ctx_fuel; cbn [rc c_doc restyle doc_defs]; rewrite map_length; reflexivity).
  rewrite E. generalize (@nil bytes, @nil nat) as st. generalize (ctx_fuel c) as fuel.
  intros fuel. revert i. induction fuel as [|f IH]; intros i st; [reflexivity|]. cbn [rvu].
  change (referenced_fragments (rc c) i) with (referenced_fragments c i). change (variable_usages (rc c) i) with (variable_usages c i).
  generalize (Some (fold_left (fun agg v => addset v agg) (variable_usages c i) (fst st), snd st)) as o. induction (referenced_fragments c i) as [|rd l IHl]; intros o; [reflexivity|].
  cbn [fold_left]. rewrite IHl. f_equal. destruct o as [[agg seen]|]; [|reflexivity]. destruct (inNat rd seen); [reflexivity|apply IH].
Qed.
Lemma leaf_other v : match leaf v with NBooleanValue _ | NEnumValue _ | NFloatValue _ | NIntValue _ | NNullValue _ | NStringValue _ => True | _ => False end.
Proof. destruct v; exact I. Qed.

(** ** The rules *)
Ltac leaves := try (cbn [r_node]; destruct (r_value _); reflexivity).
Lemma d_setExec : deaf_rule setExecutableDefinition. Proof. apply deaf_add; [easy|]. intros c n. destruct n; try reflexivity; leaves. Qed.
Lemma mset_map k (f : fragdef) l : mset k (r_frag f) (map (fun e => (fst e, r_frag (snd e))) l) = map (fun e => (fst e, r_frag (snd e))) (mset k f l).
Proof. induction l as [|[k' f'] l IH]; [reflexivity|]. cbn [map mset fst snd]. destruct (beqb _ _); [reflexivity|]. cbn [map fst snd]. rewrite <- IH. reflexivity. Qed.
Lemma d_setFrags : deaf_rule setFragments.
Proof. apply deaf_add; [easy|]. intros c n. destruct n; try reflexivity; leaves. unfold rc, set_frags. cbn [r_node c_doc c_errors c_schema c_sdl c_ops c_frags c_refs c_vars c_exec c_crash]. change (f_name (r_frag f)) with (f_name f). rewrite mset_map. reflexivity. Qed.
Definition ref_step (name : bytes) (p : nat * definition) (c : ctx) : ctx :=
  match def_body (snd p) with
  | DFrag f => if beqb (f_name f) name then let l := pget (c_exec c) (c_refs c) in if inNat (fst p) l then c else set_refs (pset (c_exec c) (l ++ [fst p]) (c_refs c)) c else c
  | _ => c end.
Lemma ref_step_rc name k d c : ref_step name (k, r_def d) (rc c) = rc (ref_step name (k, d) c).
Proof.
  unfold ref_step. cbn [fst snd r_def def_body]. destruct (def_body d) as [|f| | | | |]; try reflexivity. cbn [r_body r_frag f_name]. destruct (beqb (f_name f) name); [|reflexivity]. cbv zeta.
  change (c_exec (rc c)) with (c_exec c). change (c_refs (rc c)) with (c_refs c). destruct (inNat k (pget (c_exec c) (c_refs c))); reflexivity.
Qed.
Lemma d_setRefs : deaf_rule setReferencedFragments.
Proof.
  apply deaf_add; [easy|]. intros c n. destruct n; try reflexivity; leaves. destruct s as [|name dirs|]; try reflexivity.
  change (each (ref_step name) (numbered (map r_def (doc_defs (c_doc c)))) (rc c) = rc (each (ref_step name) (numbered (doc_defs (c_doc c))) c)).
  unfold numbered. rewrite map_length. generalize (doc_defs (c_doc c)) as ds. generalize 0 as k. intros k ds. revert k c.
  induction ds as [|d ds IH]; intros k c; [reflexivity|]. cbn [List.length seq map combine]. unfold each in *. cbn [fold_left]. rewrite ref_step_rc. apply IH.
Qed.
Ltac literals := match goal with |- context [st_literal x ?v] => assert (L : literal (st_literal x v)) by (apply Hx; exact I); destruct (st_literal x v); try contradiction; reflexivity end.
Lemma d_setVars : deaf_rule setVariableUsages.
Proof.
  apply deaf_add; [easy|]. intros c n. destruct n; try reflexivity; leaves. cbn [r_node]. destruct v; cbn [r_value]; try reflexivity; try literals.
  cbv zeta. change (c_exec (rc c)) with (c_exec c). change (c_vars (rc c)) with (c_vars c). destruct (inb n (pget (c_exec c) (c_vars c))); reflexivity.
Qed.
Lemma d_exec : deaf_rule ExecutableDefinitions. Proof. apply deaf_add; [easy|]. intros c n. destruct n; try reflexivity; leaves. cbn [r_node r_def def_body]. destruct (def_body d); reflexivity. Qed.
Lemma d_anon : deaf_rule LoneAnonymousOperation.
Proof. apply deaf_add; [easy|]. intros c n. destruct n; try reflexivity; leaves. cbn [r_node r_op o_name]. change (n_ops (c_doc (rc c))) with (n_ops (c_doc c)). destruct (beqb _ _ && _); reflexivity. Qed.
Lemma d_types : deaf_rule KnownTypeNames.
Proof. apply deaf_add; [easy|]. intros c n. destruct n; try reflexivity; leaves. cbn [r_node]. destruct t; try reflexivity. cbn [r_ty]. cbv zeta. change (c_schema (rc c)) with (c_schema c). change (c_sdl (rc c)) with (c_sdl c). destruct (_ && _ && _); reflexivity. Qed.
Lemma d_unused : deaf_rule NoUnusedVariables.
Proof.
  apply deaf_add; [easy|]. intros c n. destruct n; try reflexivity; leaves. cbn [r_node]. destruct b; try reflexivity. cbn [r_body]. rewrite rvu_rc. destruct (recursive_variable_usages c i) as [uses|]; [|reflexivity].
  cbn [r_op o_vars o_name]. unfold each. revert c. induction (o_vars o) as [|v l IH]; intros c; [reflexivity|]. cbn [map fold_left r_var v_name]. rewrite <- IH. f_equal. destruct (inb (v_name v) uses); reflexivity.
Qed.
Lemma d_dirs : deaf_rule KnownDirectives.
Proof.
  apply deaf_add; [easy|]. intros c n. destruct n; try reflexivity; leaves. cbn [r_node]. cbv zeta. change (c_schema (rc c)) with (c_schema c). change (c_sdl (rc c)) with (c_sdl c). cbn [r_dir d_name d_loc].
  match goal with |- match ?x with _ => _ end = _ => destruct x as [x'|]; [|reflexivity] end. destruct (N.eqb _ _); reflexivity.
Qed.
Lemma d_udirs : deaf_rule UniqueDirectivesPerLocation. Proof. apply deaf_add; [easy|]. intros c n. destruct n; try reflexivity; leaves. cbn [r_node]. rewrite map_map. cbn [r_dir d_name]. apply unique_deaf. Qed.
Lemma d_uargs : deaf_rule UniqueArgumentNames.
Proof.
  intros w Hw. unfold UniqueArgumentNames. repeat (apply deaf_add; [easy|intros c n; destruct n; try reflexivity; leaves; cbn [r_node r_dd r_fd r_dir dd_args fd_args d_args]; try (rewrite map_map; cbn [r_iv r_arg i_name arg_name]; apply unique_deaf)|]); [|exact Hw].
  destruct s; try reflexivity. cbn [r_sel]. rewrite map_map. apply unique_deaf.
Qed.
Lemma d_uinput : deaf_rule UniqueInputFieldNames.
Proof. apply deaf_add; [easy|]. intros c n. destruct n; try reflexivity; leaves. cbn [r_node]. destruct v; cbn [r_value]; try reflexivity; try literals. rewrite map_map. cbn [fst]. apply unique_deaf. Qed.
Lemma deaf_query : deaf query_context_walker.
Proof. apply deaf_new. repeat (apply Forall_cons || apply Forall_nil); [apply d_setFrags|apply d_setExec|apply d_setRefs|apply d_setVars]. Qed.
Lemma deaf_specified : deaf (new_walker Specified).
Proof. apply deaf_new. repeat (apply Forall_cons || apply Forall_nil); [apply d_exec|apply d_anon|apply d_types|apply d_unused|apply d_dirs|apply d_udirs|apply d_uargs|apply d_uinput]. Qed.
Lemma validate_restyle d s : validate (restyle d) s = rc (validate d s).
Proof. unfold validate. rewrite <- walk_restyle by apply deaf_specified. f_equal. unfold new_context. rewrite <- walk_restyle by apply deaf_query. reflexivity. Qed.
End restyle.
