(** * PropSdl: C21–C25, C27–C32 — the rules applied to type system documents ([validation.ValidateSDL] with rules.SpecifiedSDL). *)
From Coq Require Import Permutation.
From Verif Require Import Base AST Parser Walker WalkSpec Context Rules CtxProofs RuleProofs RuleSpec QueryProofs SdlProofs PropRules Samples.

(** ** Specification vocabulary *)
(** the definition that a name stands for: the given schema's, otherwise the first one in the document, otherwise the built-in one *)
Definition builtin_directive (n : bytes) : option dirdef :=
  mget n [(B "skip", skip_directive); (B "include", include_directive); (B "deprecated", deprecated_directive)].
Definition directive_of (doc : document) (s : option schema) (n : bytes) : option dirdef :=
  match mget n (sc_dirs (given s)) with
  | Some d => Some d
  | None => match find (fun d => if bytes_dec n (dd_name d) then true else false) (directive_definitions doc) with
            | Some d => Some d
            | None => builtin_directive n
            end
  end.
Definition type_of (doc : document) (s : option schema) (n : bytes) : option tydef :=
  match mget n (sc_types (given s)) with
  | Some d => Some d
  | None => find (fun d => if bytes_dec n (t_name d) then true else false) (type_definitions doc)
  end.

(** ** The model's look-ups are these *)
Lemma beqb_dec a b : beqb a b = if bytes_dec a b then true else false.
Proof. destruct (bytes_dec a b) as [->|H]; [apply beqb_refl|apply beqb_false, H]. Qed.
Lemma find_ext {X} (f g : X -> bool) l : (forall x, f x = g x) -> find f l = find g l.
Proof. intros H. induction l as [|x l IH]; [reflexivity|]. cbn. rewrite H, IH. reflexivity. Qed.
Lemma find_directive_of doc s n : find_directive (new_sdl_context doc s) n = directive_of doc s n.
Proof.
  destruct (prepare_spec doc s) as (sd & H). unfold find_directive, directive_of. rewrite (pr_schema _ _ _ _ _ _ H), (pr_sdl _ _ _ _ _ _ H), (pr_dirs _ _ _ _ _ _ H). unfold first_dir, mem.
  destruct (mget n (sc_dirs (given s))); [reflexivity|]. rewrite (find_ext _ (fun d => if bytes_dec n (dd_name d) then true else false)) by (intros; apply beqb_dec). reflexivity.
Qed.
Lemma ctx_directive_of doc s n sd : c_sdl (new_sdl_context doc s) = Some sd -> ctx_directive (new_sdl_context doc s) sd n = directive_of doc s n.
Proof.
  intros E. destruct (prepare_spec doc s) as (sd' & H). rewrite (pr_sdl _ _ _ _ _ _ H) in E. injection E as <-.
  rewrite <- find_directive_of. unfold ctx_directive, find_directive. rewrite (pr_schema _ _ _ _ _ _ H), (pr_sdl _ _ _ _ _ _ H), (pr_ext _ _ _ _ _ _ H).
  destruct s as [s|]; cbn [given].
  - destruct (mget n (sc_dirs s)); [reflexivity|]. destruct (mget n (sd_dirs sd')); reflexivity.
  - cbn [sc_dirs empty_schema mget]. destruct (mget n (sd_dirs sd')); reflexivity.
Qed.
Lemma ctx_type_of doc s n sd : c_sdl (new_sdl_context doc s) = Some sd -> ctx_type (new_sdl_context doc s) sd n = type_of doc s n.
Proof.
  intros E. destruct (prepare_spec doc s) as (sd' & H). rewrite (pr_sdl _ _ _ _ _ _ H) in E. injection E as <-.
  unfold ctx_type, type_of. rewrite (pr_schema _ _ _ _ _ _ H), (pr_ext _ _ _ _ _ _ H), (pr_types _ _ _ _ _ _ H). unfold first_type, mem.
  rewrite (find_ext _ (fun d => if bytes_dec n (t_name d) then true else false) (tds _)) by (intros; apply beqb_dec).
  destruct s as [s|]; cbn [given]; [destruct (mget n (sc_types s)); reflexivity|]. reflexivity.
Qed.
Lemma sdl_some doc s : exists sd, c_sdl (new_sdl_context doc s) = Some sd.
Proof. destruct (prepare_spec doc s) as (sd & H). exists sd. apply (pr_sdl _ _ _ _ _ _ H). Qed.

(** ** C21 *)
Theorem C21_sdl_exact : forall doc s known, (forall t, known t = true <-> (exists td, type_of doc s t = Some td) \/ In t scalar_names) ->
  reported is_unknown_type (validate_sdl doc s) = map EUnknownType (filter (fun t => negb (known t)) (type_refs doc)).
Proof.
  intros doc s known Hk. rewrite w_types. unfold type_refs.
  assert (E : forall t, known_type (new_sdl_context doc s) t = known t).
  { intros t. specialize (Hk t). rewrite <- inb_In in Hk. destruct (prepare_spec doc s) as (sd & H). unfold known_type. rewrite (pr_schema _ _ _ _ _ _ H), (pr_sdl _ _ _ _ _ _ H).
    unfold is_specified_scalar. fold scalar_names. unfold type_of in Hk. unfold mem. rewrite (pr_types _ _ _ _ _ _ H). unfold first_type, mem. 
    rewrite (find_ext _ (fun d => if bytes_dec t (t_name d) then true else false) (tds _)) by (intros; apply beqb_dec). change (tds (doc_defs doc)) with (type_definitions doc).
    destruct (mget t (sc_types (given s))) as [td|]; cbn [orb]; [symmetry; apply Hk; eauto|].
    destruct (find _ (type_definitions doc)) as [td|]; cbn [orb]; [symmetry; apply Hk; eauto|].
    destruct (inb t scalar_names) eqn:Ei; [symmetry; apply Hk; auto|].
    destruct (known t); [|reflexivity]. destruct (proj1 Hk eq_refl) as [(td & X)|X]; discriminate X. }
  induction (nodes doc) as [|n ns IH]; [reflexivity|]. cbn [flat_map]. rewrite IH, filter_app, map_app. f_equal. destruct n; try reflexivity. destruct t; try reflexivity.
  cbn [g_types]. rewrite E. cbn. destruct (known n); reflexivity.
Qed.
Print Assumptions C21_sdl_exact.
(** [type_of] finds a type exactly when the schema or the document defines the name. *)
Theorem C21_sdl_defined : forall doc s t, (exists td, type_of doc s t = Some td) <-> (exists td, mget t (sc_types (given s)) = Some td) \/ exists td, In td (type_definitions doc) /\ t_name td = t.
Proof.
  intros doc s t. unfold type_of. destruct (mget t (sc_types (given s))) as [td|]; [split; intros; eauto|].
  split.
  - intros (td & H). right. apply find_some in H. destruct H as [H E]. destruct (bytes_dec t (t_name td)) as [->|]; [eauto|discriminate].
  - intros [(td & H)|(td & H & <-)]; [discriminate|]. destruct (find _ (type_definitions doc)) eqn:E; [eauto|]. exfalso. apply (find_none _ _ E) in H. destruct (bytes_dec (t_name td) (t_name td)); congruence.
Qed.
Print Assumptions C21_sdl_defined.
Example C21_sdl_nonvacuous : reported is_unknown_type (validate_sdl (src "type A implements I & J {f(x:[B!]):A g:String} union U = A | C interface I {h:Int}") None) =
  [EUnknownType (B "J"); EUnknownType (B "B"); EUnknownType (B "C")].
Proof. vm_compute. reflexivity. Qed.

(** ** C22 *)
Theorem C22_sdl_exact : forall doc s ok, (forall x l, ok x l = true <-> allowed x l) ->
  reported is_directive_err (validate_sdl doc s) =
  flat_map (fun d => match directive_of doc s (d_name d) with
                     | None => [EUnknownDirective (d_name d)]
                     | Some x => if ok x (d_loc d) then [] else [EMisplaced (d_name d) (d_loc d)]
                     end) (applications doc).
Proof.
  intros doc s ok Hok. rewrite w_dirs. unfold applications. rewrite flat_flat. apply flat_ext. intros n. destruct n; try reflexivity. cbn [g_dirs flat_map]. rewrite app_nil_r, find_directive_of.
  destruct (directive_of doc s (d_name d)) as [x|]; [|reflexivity]. specialize (Hok x (d_loc d)). rewrite <- allowed_spec in Hok. destruct (N.eqb _ _), (ok x (d_loc d)); try reflexivity; intuition congruence.
Qed.
Print Assumptions C22_sdl_exact.
Example C22_sdl_nonvacuous : reported is_directive_err (validate_sdl (src "directive @d on OBJECT | ENUM directive @d on UNION type A @d {f:Int @d @deprecated} union U @d = A enum E @e {X @deprecated}") None) =
  [EMisplaced (B "d") LFieldDefinition; EMisplaced (B "d") LUnion; EUnknownDirective (B "e")].
Proof. vm_compute. reflexivity. Qed.

(** ** C23–C25 *)
Theorem C23_sdl_exact : forall doc s,
  reported is_dup_directive (validate_sdl doc s) = flat_map (fun l => map EDupDirective (later l)) (directive_sites doc) /\
  reported is_dup_arg (validate_sdl doc s) = flat_map (fun l => map EDupArg (later l)) (argument_sites doc) /\
  reported is_dup_input (validate_sdl doc s) = flat_map (fun l => map EDupInputField (later l)) (object_sites doc).
Proof.
  intros doc s. rewrite w_udirs, w_uargs, w_uinput. unfold directive_sites, argument_sites, object_sites. rewrite !flat_flat. split; [|split]; apply flat_ext; intros n; destruct n; try reflexivity.
  - cbn. rewrite app_nil_r, later_repeats. reflexivity.
  - destruct s0; cbn; try reflexivity. rewrite app_nil_r, later_repeats. reflexivity.
  - cbn. rewrite app_nil_r, later_repeats. reflexivity.
  - cbn. rewrite app_nil_r, later_repeats. reflexivity.
  - cbn. rewrite app_nil_r, later_repeats. reflexivity.
  - destruct v; try reflexivity. cbn. rewrite app_nil_r, later_repeats. reflexivity.
Qed.
Print Assumptions C23_sdl_exact.
Example C23_sdl_nonvacuous : let doc := src "directive @d(a:Int b:Int a:Int) on OBJECT type A @d @d {f(x:Int y:Int x:Int x:Int):Int g(x:Int):Int @e(v:{p:1 p:2})}" in
  reported is_dup_directive (validate_sdl doc None) = [EDupDirective (B "d")] /\ reported is_dup_arg (validate_sdl doc None) = [EDupArg (B "a"); EDupArg (B "x"); EDupArg (B "x")] /\
  reported is_dup_input (validate_sdl doc None) = [EDupInputField (B "p")].
Proof. repeat split; vm_compute; reflexivity. Qed.

(** ** C27: arguments of directives *)
(** The ideal report: every given argument the definition does not have. *)
Definition unknown_arguments (def : dirdef) (d : directive) (args : list argument) : list err :=
  map (fun a => EUnknownDirArg (arg_name a) (d_name d)) (filter (fun a => if in_dec bytes_dec (arg_name a) (map i_name (dd_args def)) then false else true) args).
(** What is reported: that for the first argument, and every later argument. *)
Theorem C27_actual : forall doc s, reported is_unknown_arg (validate_sdl doc s) =
  flat_map (fun d => match directive_of doc s (d_name d) with
                     | None => []
                     | Some def => unknown_arguments def d (firstn 1 (d_args d)) ++ map (fun a => EUnknownDirArg (arg_name a) (d_name d)) (tl (d_args d))
                     end) (applications doc).
Proof.
  intros doc s. rewrite w_kargs. unfold applications. rewrite flat_flat. apply flat_ext. intros n. destruct n; try reflexivity. cbn [g_kargs flat_map]. rewrite app_nil_r.
  destruct (sdl_some doc s) as (sd & E). rewrite E, (ctx_directive_of doc s _ sd E). destruct (directive_of doc s (d_name d)) as [def|]; [|reflexivity].
  destruct (d_args d) as [|a r]; [reflexivity|]. cbn [firstn tl]. f_equal. unfold unknown_arguments. cbn [filter].
  destruct (in_dec bytes_dec (arg_name a) (map i_name (dd_args def))) as [H|H]; [apply inb_In in H|apply inb_notIn in H]; rewrite H; reflexivity.
Qed.
Print Assumptions C27_actual.
(** Exact when no application has more than one argument. *)
Theorem C27_exact_for_single_arguments : forall doc s, (forall d, In d (applications doc) -> List.length (d_args d) <= 1) ->
  reported is_unknown_arg (validate_sdl doc s) =
  flat_map (fun d => match directive_of doc s (d_name d) with None => [] | Some def => unknown_arguments def d (d_args d) end) (applications doc).
Proof.
  intros doc s H. rewrite C27_actual. apply flat_ext_in. intros d Hd. specialize (H d Hd). destruct (directive_of doc s (d_name d)); [|reflexivity].
  destruct (d_args d) as [|a [|b r]]; cbn in *; [reflexivity| |lia]. apply app_nil_r.
Qed.
Print Assumptions C27_exact_for_single_arguments.
(** No unknown argument is missed, and arguments of unknown directives are never reported. *)
Theorem C27_none_missed : forall doc s d def a, In d (applications doc) -> directive_of doc s (d_name d) = Some def -> In a (d_args d) ->
  ~ In (arg_name a) (map i_name (dd_args def)) -> In (EUnknownDirArg (arg_name a) (d_name d)) (c_errors (validate_sdl doc s)).
Proof.
  intros doc s d def a Hd E Ha Hn. rewrite (reported_In is_unknown_arg) by reflexivity. rewrite C27_actual. apply in_flat_map. exists d. split; [exact Hd|]. rewrite E.
  destruct (d_args d) as [|b r]; [destruct Ha|]. cbn [firstn tl]. destruct Ha as [->|Ha]; apply in_or_app; [left|right].
  - unfold unknown_arguments. cbn [filter]. destruct (in_dec bytes_dec (arg_name a) _); [contradiction|]. left. reflexivity.
  - apply in_map_iff. exists a. auto.
Qed.
Print Assumptions C27_none_missed.
Theorem C27_only_defined_directives : forall doc s a n, In (EUnknownDirArg a n) (c_errors (validate_sdl doc s)) -> exists def d, directive_of doc s n = Some def /\ In d (applications doc) /\ d_name d = n /\ In a (map arg_name (d_args d)).
Proof.
  intros doc s a n. rewrite (reported_In is_unknown_arg) by reflexivity. rewrite C27_actual, in_flat_map. intros (d & Hd & H). destruct (directive_of doc s (d_name d)) as [def|] eqn:E; [|destruct H].
  exists def, d. assert (X : n = d_name d /\ In a (map arg_name (d_args d))).
  { apply in_app_iff in H. destruct H as [H|H]; [unfold unknown_arguments in H|]; apply in_map_iff in H; destruct H as (x & Ex & Hx); injection Ex as <- <-; (split; [reflexivity|]); apply in_map.
    - apply filter_In in Hx. destruct Hx as [Hx _]. destruct (d_args d); [destruct Hx|]. destruct Hx as [->|[]]. left. reflexivity.
    - destruct (d_args d); [destruct Hx|]. right. exact Hx. }
  destruct X as [-> X]. auto.
Qed.
Print Assumptions C27_only_defined_directives.
(** The ideal property fails: the second argument is declared, yet reported. *)
Theorem C27_second_argument_refuted : exists doc d def a, In d (applications doc) /\ directive_of doc None (d_name d) = Some def /\ In a (d_args d) /\
  In (arg_name a) (map i_name (dd_args def)) /\ In (EUnknownDirArg (arg_name a) (d_name d)) (c_errors (validate_sdl doc None)).
Proof.
  exists (src "directive @d(a:Int b:Int) on OBJECT type A @d(a:1 b:2)"), (mkDir (B "d") [mkArg (B "a") (VInt 1); mkArg (B "b") (VInt 2)] LObject),
    (mkDd [] (B "d") [mkIv [] (B "a") (TNamed (B "Int") false) None []; mkIv [] (B "b") (TNamed (B "Int") false) None []] LObject), (mkArg (B "b") (VInt 2)).
  vm_compute. intuition.
Qed.
Print Assumptions C27_second_argument_refuted.
Example C27_nonvacuous : let doc := src "directive @d(a:Int) on OBJECT type A @d(a:1) type C @d(z:1) type D @e(q:1)" in
  (forall d, In d (applications doc) -> List.length (d_args d) <= 1) /\ reported is_unknown_arg (validate_sdl doc None) = [EUnknownDirArg (B "z") (B "d")].
Proof. vm_compute. split; [|reflexivity]. intros d H. repeat (destruct H as [<-|H]; [cbn; lia|]). destruct H. Qed.

(** ** C28: required arguments of directives *)
Definition required_argument (d : directive) (i : ivdef) : bool :=
  match i_type i with TNamed _ true | TList _ true => true | _ => false end && match i_default i with None => true | Some _ => false end &&
  (if in_dec bytes_dec (i_name i) (map arg_name (d_args d)) then false else true).
Theorem C28_exact : forall doc s, reported is_missing_arg (validate_sdl doc s) =
  flat_map (fun d => match directive_of doc s (d_name d) with
                     | None => []
                     | Some def => map (fun i => EMissingArg (d_name d) (i_name i) (ty_string (i_type i))) (filter (required_argument d) (dd_args def))
                     end) (applications doc).
Proof.
  intros doc s. rewrite w_required. unfold applications. rewrite flat_flat. apply flat_ext. intros n. destruct n; try reflexivity. cbn [g_required flat_map]. rewrite app_nil_r, find_directive_of.
  destruct (directive_of doc s (d_name d)) as [def|]; [|reflexivity]. induction (dd_args def) as [|i r IH]; [reflexivity|]. cbn [flat_map filter]. rewrite IH. unfold required_argument at 2, ty_nonnull.
  destruct (in_dec bytes_dec (i_name i) (map arg_name (d_args d))) as [H|H]; [apply inb_In in H|apply inb_notIn in H]; rewrite H; cbn [negb andb]; rewrite ?andb_false_r, ?andb_true_r; [reflexivity|].
  destruct (i_default i); cbn [andb]; [rewrite andb_false_r; reflexivity|]. rewrite andb_true_r. destruct (i_type i) as [m []|m []|] eqn:Ei; cbn [map app]; rewrite ?Ei; reflexivity.
Qed.
Print Assumptions C28_exact.
Example C28_nonvacuous : reported is_missing_arg (validate_sdl (src "directive @d(a:Int! b:[Int!]! c:Int!=3 e:Int) on OBJECT type A @d type C @d(b:[1]) type D @d(b:2 a:1)") None) =
  [EMissingArg (B "d") (B "a") (B "Int!"); EMissingArg (B "d") (B "b") (B "[Int!]!"); EMissingArg (B "d") (B "a") (B "Int!")].
Proof. vm_compute. reflexivity. Qed.

(** ** C29: names.  [defined_names] (RuleSpec.v): types, fields, directives, arguments, input fields. *)
Definition reserved (n : bytes) : Prop := exists r, n = B "__" ++ r.
Theorem C29_actual : forall doc s bad, (forall n, bad n = true <-> exists a b r, n = a :: b :: r /\ (a = "_"%char \/ b = "_"%char)) ->
  reported is_underscores (validate_sdl doc s) = map ETwoUnderscores (filter bad (defined_names doc)).
Proof.
  intros doc s bad H. rewrite w_names. unfold defined_names.
  assert (E : forall n, is_valid_name n = negb (bad n)).
  { intros n. specialize (H n). destruct (bad n).
    - destruct (proj1 H eq_refl) as (a & b & r & -> & [->| ->]); cbn; rewrite ?andb_false_r; reflexivity.
    - unfold is_valid_name. destruct n as [|a [|b r]]; [reflexivity|reflexivity|]. cbn [negb]. rewrite <- negb_orb. apply negb_true_iff, not_true_is_false. intros X. apply orb_true_iff in X.
      assert (Y : false = true) by (apply H; exists a, b, r; split; [reflexivity|]; rewrite <- !Ascii.eqb_eq; exact X). discriminate Y. }
  induction (nodes doc) as [|n ns IH]; [reflexivity|]. cbn [flat_map]. rewrite IH, filter_app, map_app. f_equal.
  destruct n; try reflexivity; cbn [g_names]; rewrite E; cbn [filter]; destruct (bad _); reflexivity.
Qed.
Print Assumptions C29_actual.
Definition bad_name (n : bytes) : bool := match n with a :: b :: _ => Ascii.eqb a "_"%char || Ascii.eqb b "_"%char | _ => false end.
Lemma bad_name_spec n : bad_name n = true <-> exists a b r, n = a :: b :: r /\ (a = "_"%char \/ b = "_"%char).
Proof.
  destruct n as [|a [|b r]]; cbn; [split; [discriminate|intros (? & ? & ? & X & _); discriminate X]|split; [discriminate|intros (? & ? & ? & X & _); discriminate X]|].
  rewrite orb_true_iff, !Ascii.eqb_eq. split; [eauto 8|]. intros (a' & b' & r' & X & Y). injection X as <- <- <-. exact Y.
Qed.
(** Every reserved name is reported, and no name without an underscore in its first two characters is. *)
Theorem C29_reserved_names_reported : forall doc s n, In n (defined_names doc) -> reserved n -> In (ETwoUnderscores n) (c_errors (validate_sdl doc s)).
Proof.
  intros doc s n Hn (r & ->). rewrite (reported_In is_underscores) by reflexivity. rewrite (C29_actual doc s bad_name bad_name_spec). apply in_map, filter_In. split; [exact Hn|reflexivity].
Qed.
Print Assumptions C29_reserved_names_reported.
Theorem C29_reported_names : forall doc s n, In (ETwoUnderscores n) (c_errors (validate_sdl doc s)) -> In n (defined_names doc) /\ exists a b r, n = a :: b :: r /\ (a = "_"%char \/ b = "_"%char).
Proof.
  intros doc s n. rewrite (reported_In is_underscores) by reflexivity. rewrite (C29_actual doc s bad_name bad_name_spec), in_map_iff. intros (m & E & H). injection E as ->.
  apply filter_In in H. rewrite bad_name_spec in H. exact H.
Qed.
Print Assumptions C29_reported_names.
(** Exact on documents whose names have no single underscore in front. *)
Theorem C29_exact_without_single_underscores : forall doc s, (forall n, In n (defined_names doc) -> bad_name n = true -> reserved n) ->
  forall n, In (ETwoUnderscores n) (c_errors (validate_sdl doc s)) <-> In n (defined_names doc) /\ reserved n.
Proof.
  intros doc s H n. split; [|intros [A R]; apply C29_reserved_names_reported; assumption]. intros X. apply C29_reported_names in X. destruct X as [A X]. split; [exact A|]. apply H; [exact A|]. apply bad_name_spec, X.
Qed.
Print Assumptions C29_exact_without_single_underscores.
Theorem C29_single_underscore_refuted : exists doc n, In n (defined_names doc) /\ ~ reserved n /\ In (ETwoUnderscores n) (c_errors (validate_sdl doc None)).
Proof.
  exists (src "type T {x_pos:Int}"), (B "x_pos"). split; [|split]; [vm_compute; tauto| |vm_compute; tauto]. intros (r & E). discriminate E.
Qed.
Print Assumptions C29_single_underscore_refuted.
(** Enum values are not looked at. *)
Theorem C29_enum_values_refuted : exists doc t e, In t (type_definitions doc) /\ In e (t_values t) /\ reserved (ev_name e) /\ c_errors (validate_sdl doc None) = [].
Proof.
  exists (src "enum E {__X}"), (mkTd KEnum [] (B "E") [] [] [] [] [mkEv [] (B "__X") []] []), (mkEv [] (B "__X") []). split; [|split; [|split]]; [vm_compute; tauto|vm_compute; tauto|exists (B "X"); reflexivity|vm_compute; reflexivity].
Qed.
Print Assumptions C29_enum_values_refuted.
Example C29_nonvacuous : let doc := src "type __T {f(__a:Int):Int ab:Int} directive @__d on OBJECT input I {__i:Int}" in
  (forall n, In n (defined_names doc) -> bad_name n = true -> reserved n) /\
  reported is_underscores (validate_sdl doc None) = map ETwoUnderscores [B "__T"; B "__a"; B "__d"; B "__i"].
Proof.
  split; [|vm_compute; reflexivity]. intros n H Hb. assert (E : defined_names (src "type __T {f(__a:Int):Int ab:Int} directive @__d on OBJECT input I {__i:Int}") = [B "__T"; B "f"; B "__a"; B "ab"; B "__d"; B "I"; B "__i"]) by (vm_compute; reflexivity).
  rewrite E in H. repeat (destruct H as [<-|H]; [first [discriminate Hb|eexists; reflexivity]|]). destruct H.
Qed.

(** ** C30: type extensions *)
Definition extension_error (doc : document) (s : option schema) (x : tydef) : list err :=
  match type_of doc s (t_name x) with
  | None => [EExtendUnknown (t_name x)]
  | Some def => match t_kind x, t_kind def with
                | KScalar, KScalar | KObject, KObject | KInterface, KInterface | KUnion, KUnion | KEnum, KEnum | KInputObject, KInputObject => []
                | _, k => [EExtendKind (t_name x) (kind_string k)]
                end
  end.
Theorem C30_exact : forall doc s, reported is_ext_err (validate_sdl doc s) = flat_map (extension_error doc s) (type_extensions doc).
Proof.
  intros doc s. rewrite w_ext, <- (enter_nodes g_ext), flat_defs; [|intros [] n Hi; destruct n; try reflexivity; discriminate Hi|intros []; reflexivity|intros []; reflexivity].
  destruct (sdl_some doc s) as (sd & E).
  erewrite (flat_ext _ (fun p => (fun d => match def_body d with XType x => extension_error doc s x | _ => [] end) (snd p))).
  2:{ intros [i d]. cbn [fst snd]. unfold head_events, heads. destruct (def_body d) as [o|f|x|x|x|x|x]; try reflexivity. cbn [rev app map flat_map fst snd enter g_ext]. rewrite E, (ctx_type_of doc s _ sd E), app_nil_r.
      unfold extension_error. destruct (type_of doc s (t_name x)) as [def|]; [|reflexivity]. destruct (t_kind x), (t_kind def); reflexivity. }
  rewrite (flat_snd (fun d => match def_body d with XType x => extension_error doc s x | _ => [] end)). unfold type_extensions. rewrite flat_flat. apply flat_ext. intros d. destruct (def_body d); try reflexivity. cbn. rewrite app_nil_r. reflexivity.
Qed.
Print Assumptions C30_exact.
Theorem C30_none_iff : forall doc s, reported is_ext_err (validate_sdl doc s) = [] <->
  forall x, In x (type_extensions doc) -> exists def, type_of doc s (t_name x) = Some def /\ t_kind x = t_kind def.
Proof.
  intros doc s. rewrite C30_exact. induction (type_extensions doc) as [|x l IH]; cbn [flat_map]; [split; [intros _ x []|reflexivity]|]. split.
  - intros H. apply app_eq_nil in H. destruct H as [H1 H2]. intros y [<-|Hy]; [|apply IH; assumption]. unfold extension_error in H1. destruct (type_of doc s (t_name x)) as [def|]; [|discriminate]. exists def. split; [reflexivity|].
    destruct (t_kind x), (t_kind def); (reflexivity || discriminate).
  - intros H. replace (extension_error doc s x) with (@nil err); [cbn; apply IH; intros y Hy; apply H; right; exact Hy|]. destruct (H x (or_introl eq_refl)) as (def & E & K). unfold extension_error. rewrite E, K. destruct (t_kind def); reflexivity.
Qed.
Print Assumptions C30_none_iff.
Example C30_nonvacuous : reported is_ext_err (validate_sdl (src "extend type A {f:Int} extend type U {x:Int} type A enum E {X} extend union E = A extend enum E {Y}") None) =
  [EExtendUnknown (B "U"); EExtendKind (B "E") (B "enum")].
Proof. vm_compute. reflexivity. Qed.

(** ** C31: operation types *)
(** all operation types of the document: the number of the definition, whether it is an extension, the kind of operation *)
Definition op_entries (doc : document) : list (nat * bool * opkind) :=
  flat_map (fun p => match def_body (snd p) with
    | DSchema x => map (fun t => (fst p, false, ot_op t)) (s_ops x)
    | XSchema x => map (fun t => (fst p, true, ot_op t)) (s_ops x)
    | _ => [] end) (combine (seq 0 (List.length (doc_defs doc))) (doc_defs doc)).
Fixpoint with_before {X Y} (f : list X -> X -> list Y) (before l : list X) : list Y :=
  match l with [] => [] | x :: l => f before x ++ with_before f (before ++ [x]) l end.
Definition opkind_dec (a b : opkind) : {a = b} + {a <> b}. Proof. decide equality. Defined.
Definition entry_dec (a b : nat * bool * opkind) : {a = b} + {a <> b}. Proof. repeat decide equality. Defined.
Definition root_type (s : schema) (o : opkind) : option ty := match o with Query => sc_query s | Mutation => sc_mutation s | Subscription => sc_subscription s end.
(** an operation type of an extension is an error if the schema has one or an earlier one of the document is of that kind; one of a
    schema definition if an earlier one of the same definition is. *)
Definition optype_error (sch : schema) (before : list (nat * bool * opkind)) (e : nat * bool * opkind) : list err :=
  let '(i, ext, o) := e in
  if ext then
    match root_type sch o with
    | Some _ => [EExistedOperationType (op_string o)]
    | None => if in_dec opkind_dec o (map snd before) then [EDupOperationType (op_string o)] else []
    end
  else if in_dec entry_dec (i, false, o) before then [EDupOperationType (op_string o)] else [].
Lemma with_before_app {X Y} (f : list X -> X -> list Y) b l1 l2 : with_before f b (l1 ++ l2) = with_before f b l1 ++ with_before f (b ++ l1) l2.
Proof. revert b. induction l1 as [|x l1 IH]; intros b; cbn; [rewrite app_nil_r; reflexivity|]. rewrite IH, <- app_assoc, <- app_assoc. reflexivity. Qed.
Lemma opkind_eqb_eq a b : opkind_eqb a b = true <-> a = b. Proof. destruct a, b; cbn; split; congruence. Qed.
Lemma existsb_kind o l : existsb (opkind_eqb o) l = true <-> In o l.
Proof. rewrite existsb_exists. split; [intros (x & H & E); apply opkind_eqb_eq in E; congruence|intros H; exists o; split; [exact H|apply opkind_eqb_eq; reflexivity]]. Qed.
Lemma def_errors sch i l : forall before seen, (forall o, In o seen <-> In (i, false, o) before) ->
  with_before (optype_error sch) before (map (fun o => (i, false, o)) l) = map (fun o => EDupOperationType (op_string o)) (repeats_kind seen l).
Proof.
  induction l as [|o l IH]; intros before seen H; [reflexivity|]. cbn [map with_before repeats_kind]. rewrite map_app, (IH (before ++ [(i, false, o)]) (o :: seen)).
  - f_equal. cbn. destruct (existsb (opkind_eqb o) seen) eqn:E; destruct (in_dec entry_dec (i, false, o) before) as [Hi|Hi]; try reflexivity; exfalso.
    + apply existsb_kind in E. apply Hi, H, E.
    + apply H in Hi. apply existsb_kind in Hi. congruence.
  - intros o'. rewrite in_app_iff, <- H. cbn. intuition congruence.
Qed.
Lemma flag_with o o' s : flag o' (with_flag o s) = opkind_eqb o' o || flag o' s. Proof. destruct o, o'; reflexivity. Qed.
Lemma ext_errors_spec sch i l : forall before s, (forall o, flag o s = true <-> In o (map snd before)) ->
  with_before (optype_error sch) before (map (fun o => (i, true, o)) l) = ext_errors sch s l.
Proof.
  induction l as [|o l IH]; intros before s H; [reflexivity|]. cbn [map with_before ext_errors]. rewrite (IH (before ++ [(i, true, o)]) (with_flag o s)).
  - f_equal. cbn. unfold schema_op, root_type. specialize (H o). destruct (in_dec opkind_dec o (map snd before)) as [Hi|Hi]; [apply H in Hi; rewrite Hi; reflexivity|].
    destruct (flag o s) eqn:Ef; [destruct Hi; apply H; reflexivity|reflexivity].
  - intros o'. rewrite flag_with, map_app, in_app_iff, orb_true_iff, H, opkind_eqb_eq. cbn. intuition congruence.
Qed.
Theorem C31_exact : forall doc s, reported is_optype_err (validate_sdl doc s) = with_before (optype_error (given s)) [] (op_entries doc).
Proof.
  intros doc s. rewrite (sdl_reported0 _ 13); [|lia|kk]. rewrite Ge_opt, opt_doc. destruct (prepare_spec doc s) as (sd & H). unfold op_entries.
  assert (G : forall ds k c sd before, c_sdl c = Some sd -> c_schema c = given s -> (forall o, flag o sd = true <-> In o (map snd before)) -> (forall e, In e before -> fst (fst e) < k) ->
    opt_defs c ds = with_before (optype_error (given s)) before (flat_map (fun p => match def_body (snd p) with
      | DSchema x => map (fun t => (fst p, false, ot_op t)) (s_ops x) | XSchema x => map (fun t => (fst p, true, ot_op t)) (s_ops x) | _ => [] end) (combine (seq k (List.length ds)) ds))).
  { clear. induction ds as [|d ds IH]; intros k c sd before Es Ec Hf Hk; [reflexivity|]. cbn [List.length seq combine flat_map opt_defs fst snd]. rewrite with_before_app.
    assert (Next : forall l b, let ent := map (fun t => (k, b, ot_op t)) l in opt_defs (mark_all (map ot_op l) c) ds = with_before (optype_error (given s)) (before ++ ent) (flat_map (fun p => match def_body (snd p) with
      | DSchema x => map (fun t => (fst p, false, ot_op t)) (s_ops x) | XSchema x => map (fun t => (fst p, true, ot_op t)) (s_ops x) | _ => [] end) (combine (seq (S k) (List.length ds)) ds))).
    { intros l b ent. unfold mark_all. rewrite Es. apply (IH (S k) _ (fold_left (fun s o => with_flag o s) (map ot_op l) sd)); [reflexivity|exact Ec| |].
      - intros o. unfold ent. rewrite map_app, in_app_iff, map_map. cbn [snd]. rewrite <- Hf. clear. revert sd. induction l as [|t l IH]; intros sd; cbn [map fold_left]; [cbn; tauto|].
        rewrite IH, flag_with, orb_true_iff, opkind_eqb_eq. cbn. intuition congruence.
      - intros e He. apply in_app_iff in He. destruct He as [He|He]; [apply Hk in He; lia|]. apply in_map_iff in He. destruct He as (t & <- & _). cbn. lia. }
    destruct (def_body d) as [o|f|x|x|x|x|x]; cbn [with_before app]; try (rewrite app_nil_r; apply (IH (S k) c sd); auto; intros e He; apply Hk in He; lia).
    - rewrite (Next _ false). f_equal. cbn [g_optypes]. symmetry. rewrite <- (map_map ot_op (fun o => (k, false, o))). apply def_errors. intros o. split; [intros []|]. intros Hi. apply Hk in Hi. cbn in Hi. lia.
    - rewrite (Next _ true). f_equal. cbn [g_optypes]. rewrite Es, Ec. symmetry. rewrite <- (map_map ot_op (fun o => (k, true, o))). apply ext_errors_spec. exact Hf. }
  apply (G (doc_defs doc) 0 _ sd []); [apply (pr_sdl _ _ _ _ _ _ H)|apply (pr_schema _ _ _ _ _ _ H)| |intros e []].
  destruct (pr_flags _ _ _ _ _ _ H) as (F1 & F2 & F3). intros o. split; [|intros []]. intros X. destruct o; cbn in X; congruence.
Qed.
Print Assumptions C31_exact.
(** The usual case — no schema is extended and a single schema definition comes before every schema extension: an error for exactly the
    second and later occurrences of each kind in the whole document. *)
Theorem C31_second_occurrences : forall doc, (forall a e b, op_entries doc = a ++ e :: b -> snd (fst e) = false -> forall e', In e' a -> fst e' = fst e) ->
  reported is_optype_err (validate_sdl doc None) =
  with_before (fun before o => if in_dec opkind_dec o before then [EDupOperationType (op_string o)] else []) [] (map snd (op_entries doc)).
Proof.
  intros doc H. rewrite C31_exact. cbn [given]. assert (G : forall l before, (forall a e b, before ++ l = a ++ e :: b -> snd (fst e) = false -> forall e', In e' a -> fst e' = fst e) ->
    with_before (optype_error empty_schema) before l = with_before (fun before o => if in_dec opkind_dec o before then [EDupOperationType (op_string o)] else []) (map snd before) (map snd l)).
  { clear. induction l as [|[[i ext] o] l IH]; intros before H; [reflexivity|]. cbn [map with_before snd]. rewrite (IH (before ++ [(i, ext, o)])); [|rewrite <- app_assoc; exact H].
    rewrite map_app. cbn [map snd]. f_equal. unfold optype_error. destruct ext; [destruct o; reflexivity|].
    specialize (H before (i, false, o) l eq_refl eq_refl). destruct (in_dec entry_dec (i, false, o) before) as [Hi|Hi]; destruct (in_dec opkind_dec o (map snd before)) as [Hj|Hj]; try reflexivity; exfalso.
    - apply Hj. apply in_map_iff. exists (i, false, o). auto.
    - apply in_map_iff in Hj. destruct Hj as ([p q] & E & Hj). cbn in E. subst q. specialize (H _ Hj). cbn in H. subst p. contradiction. }
  apply (G (op_entries doc) []). exact H.
Qed.
Print Assumptions C31_second_occurrences.
(** Otherwise a definition after an extension is not compared with it. *)
Theorem C31_definition_after_extension_refuted : exists doc, map snd (op_entries doc) = [Query; Query] /\ reported is_optype_err (validate_sdl doc None) = [].
Proof. exists (src "extend schema {query:A} schema {query:C}"). split; vm_compute; reflexivity. Qed.
Print Assumptions C31_definition_after_extension_refuted.
Example C31_nonvacuous : let doc := src "schema {query:A mutation:A query:C} extend schema {mutation:D subscription:A}" in
  (forall a e b, op_entries doc = a ++ e :: b -> snd (fst e) = false -> forall e', In e' a -> fst e' = fst e) /\
  reported is_optype_err (validate_sdl doc None) = [EDupOperationType (B "query"); EDupOperationType (B "mutation")] /\
  reported is_optype_err (validate_sdl doc (Some (mkSchema None (Some (TNamed (B "A") false)) None None [] []))) = [EDupOperationType (B "query"); EDupOperationType (B "mutation")] /\
  reported is_optype_err (validate_sdl (src "extend schema {query:A}") (Some (mkSchema None (Some (TNamed (B "A") false)) None None [] []))) = [EExistedOperationType (B "query")].
Proof.
  split; [|repeat split; vm_compute; reflexivity].
  assert (E : op_entries (src "schema {query:A mutation:A query:C} extend schema {mutation:D subscription:A}") = [(0,false,Query);(0,false,Mutation);(0,false,Query);(1,true,Mutation);(1,true,Subscription)]) by (vm_compute; reflexivity).
  rewrite E. intros a e b H He e' H'. destruct a as [|x1 [|x2 [|x3 [|x4 [|x5 a]]]]]; cbn [app] in H; injection H; intros; subst; try discriminate He; try (cbn in H'; intuition (subst; reflexivity)).
  destruct a; discriminate.
Qed.

(** ** C32: uniqueness of definitions *)
Definition in_schema_type (s : option schema) (n : bytes) : bool := match mget n (sc_types (given s)) with Some _ => true | None => false end.
Definition in_schema_dir (s : option schema) (n : bytes) : bool := match mget n (sc_dirs (given s)) with Some _ => true | None => false end.
Theorem C32_types : forall doc s,
  reported is_existed_type (validate_sdl doc s) = map EExistedType (filter (in_schema_type s) (map t_name (type_definitions doc))) /\
  reported is_dup_type (validate_sdl doc s) = map EDupTypeName (later (filter (fun n => negb (in_schema_type s n)) (map t_name (type_definitions doc)))).
Proof.
  intros doc s. destruct (prepare_spec doc s) as (sd & H). split; (rewrite sdl_prepared; [|intros e; destruct e; cbn; congruence]).
  - rewrite (pr_e_xtype _ _ _ _ _ _ H). reflexivity.
  - rewrite (pr_e_type _ _ _ _ _ _ H), later_repeats. reflexivity.
Qed.
Print Assumptions C32_types.
Theorem C32_directives : forall doc s,
  reported is_existed_dir (validate_sdl doc s) = map EExistedDirective (filter (in_schema_dir s) (map dd_name (directive_definitions doc))) /\
  reported is_dup_dir (validate_sdl doc s) = map EDupDirectiveName (later (filter (fun n => negb (in_schema_dir s n)) (map dd_name (directive_definitions doc)))).
Proof.
  intros doc s. destruct (prepare_spec doc s) as (sd & H). split; (rewrite sdl_prepared; [|intros e; destruct e; cbn; congruence]).
  - rewrite (pr_e_xdir _ _ _ _ _ _ H). reflexivity.
  - rewrite (pr_e_dir _ _ _ _ _ _ H), later_repeats. reflexivity.
Qed.
Print Assumptions C32_directives.
Theorem C32_schema_definitions : forall doc s, reported is_schema_err (validate_sdl doc s) =
  match s with
  | None => map (fun _ => ESchemaNotAlone) (tl (schema_definitions doc))
  | Some _ => map (fun _ => ESchemaInExtension) (schema_definitions doc)
  end.
Proof.
  intros doc s. destruct (prepare_spec doc s) as (sd & H). rewrite sdl_prepared; [|intros e; destruct e; cbn; congruence]. rewrite (pr_e_schema _ _ _ _ _ _ H). destruct s; reflexivity.
Qed.
Print Assumptions C32_schema_definitions.
Theorem C32_none_iff : forall doc, 
  (forall e, In e (c_errors (validate_sdl doc None)) -> is_existed_type e || is_dup_type e || is_existed_dir e || is_dup_dir e || is_schema_err e = false) <->
  NoDup (map t_name (type_definitions doc)) /\ NoDup (map dd_name (directive_definitions doc)) /\ List.length (schema_definitions doc) <= 1.
Proof.
  intros doc. destruct (C32_types doc None) as [T1 T2]. destruct (C32_directives doc None) as [D1 D2]. pose proof (C32_schema_definitions doc None) as S1.
  assert (Ft : forall l, filter (fun n => negb (in_schema_type None n)) l = l) by (intros l; induction l as [|x l IH]; [reflexivity|]; cbn; f_equal; exact IH).
  assert (Fd : forall l, filter (fun n => negb (in_schema_dir None n)) l = l) by (intros l; induction l as [|x l IH]; [reflexivity|]; cbn; f_equal; exact IH).
  assert (Gt : forall l, filter (in_schema_type None) l = []) by (intros l; induction l as [|x l IH]; [reflexivity|]; cbn; exact IH).
  assert (Gd : forall l, filter (in_schema_dir None) l = []) by (intros l; induction l as [|x l IH]; [reflexivity|]; cbn; exact IH).
  rewrite Ft in T2. rewrite Fd in D2. rewrite Gt in T1. rewrite Gd in D1. rewrite <- !later_nil.
  assert (R : forall k, reported k (validate_sdl doc None) = [] <-> forall e, In e (c_errors (validate_sdl doc None)) -> k e = false).
  { intros k. split.
    - intros E e He. destruct (k e) eqn:K; [|reflexivity]. apply (reported_In k _ e K) in He. rewrite E in He. destruct He.
    - intros G. unfold reported. rewrite (filter_none k); [reflexivity|exact G]. }
  split.
  - intros G. assert (Gk : forall k, (forall e, k e = true -> is_existed_type e || is_dup_type e || is_existed_dir e || is_dup_dir e || is_schema_err e = true) -> reported k (validate_sdl doc None) = []).
    { intros k Hk. apply R. intros e He. destruct (k e) eqn:K; [|reflexivity]. specialize (G e He). rewrite (Hk e K) in G. discriminate. }
    rewrite Gk in T2 by (intros e; destruct e; cbn; congruence). rewrite Gk in D2 by (intros e; destruct e; cbn; congruence). rewrite Gk in S1 by (intros e; destruct e; cbn; congruence).
    split; [destruct (later _); [reflexivity|discriminate]|]. split; [destruct (later (map dd_name _)); [reflexivity|discriminate]|]. destruct (schema_definitions doc) as [|a [|b r]]; cbn in *; [lia|lia|discriminate].
  - intros (A1 & A2 & A3). rewrite A1 in T2. rewrite A2 in D2. assert (Es : tl (schema_definitions doc) = []) by (destruct (schema_definitions doc) as [|a [|b r]]; cbn in *; [reflexivity|reflexivity|lia]).
    rewrite Es in S1. cbn [map] in *. intros e He. rewrite (proj1 (R _) T1 e He), (proj1 (R _) T2 e He), (proj1 (R _) D1 e He), (proj1 (R _) D2 e He), (proj1 (R _) S1 e He). reflexivity.
Qed.
Print Assumptions C32_none_iff.
Example C32_nonvacuous : let doc := src "type A scalar A type C schema {query:A} directive @d on OBJECT directive @d on OBJECT schema {query:A} type A" in
  reported is_dup_type (validate_sdl doc None) = [EDupTypeName (B "A"); EDupTypeName (B "A")] /\ reported is_dup_dir (validate_sdl doc None) = [EDupDirectiveName (B "d")] /\
  reported is_schema_err (validate_sdl doc None) = [ESchemaNotAlone] /\
  reported is_existed_type (validate_sdl doc (Some (mkSchema None None None None [] [(B "C", scalar_type (B "C"))]))) = [EExistedType (B "C")].
Proof. repeat split; vm_compute; reflexivity. Qed.

(** ** C43: no crash, nothing but errors and flags change, no other errors *)
(** The schema is left alone.  The document is too, except that anonymous operations are given the name $$query. *)
Definition with_operation_names (doc doc' : document) : Prop :=
  (n_ops doc', n_frags doc', n_dirdefs doc', n_schemas doc', n_types doc', n_schemaexts doc', n_typeexts doc') = (n_ops doc, n_frags doc, n_dirdefs doc, n_schemas doc, n_types doc, n_schemaexts doc, n_typeexts doc) /\
  Forall2 (fun d d' => def_line d' = def_line d /\ def_col d' = def_col d /\
    match def_body d with
    | DOp o => exists o', def_body d' = DOp o' /\ o_name o' = match o_name o with [] => B "$$query" | n => n end /\
                          o_kind o' = o_kind o /\ o_vars o' = o_vars o /\ o_dirs o' = o_dirs o /\ o_sels o' = o_sels o
    | b => def_body d' = b
    end) (doc_defs doc) (doc_defs doc').
Lemma named_spec doc : with_operation_names doc (name_document doc).
Proof.
  split; [reflexivity|]. cbn [name_document doc_defs]. induction (doc_defs doc) as [|d ds IH]; cbn [map]; constructor; [|exact IH]. unfold name_definition. destruct (def_body d) as [o| | | | | |] eqn:E; auto.
  cbn [def_line def_col def_body]. split; [reflexivity|]. split; [reflexivity|]. exists (name_operation o). unfold name_operation. destruct (o_name o) eqn:En; cbn; rewrite ?En; auto 10.
Qed.
Theorem C43_sdl_read_only : forall doc s, with_operation_names doc (c_doc (validate_sdl doc s)) /\ c_schema (validate_sdl doc s) = given s /\ c_crash (validate_sdl doc s) = false.
Proof.
  intros doc s. destruct (sdl_ctx doc s) as (es & os & ->). cbn [c_doc c_schema c_crash set_errors]. destruct (mark_all_keep os (new_sdl_context doc s)) as (s' & _ & -> & _). cbn [c_doc c_schema c_crash set_sdl].
  destruct (prepare_spec doc s) as (sd & H). rewrite (pr_doc _ _ _ _ _ _ H), (pr_schema _ _ _ _ _ _ H), (pr_crash _ _ _ _ _ _ H). split; [|auto]. apply named_spec.
Qed.
Print Assumptions C43_sdl_read_only.
Theorem C43_sdl_no_other_errors : forall doc s e, In e (c_errors (validate_sdl doc s)) -> sdl_kinds e = true.
Proof. intros doc s e H. pose proof (w_kinds doc s) as F. rewrite Forall_forall in F. apply F, H. Qed.
Print Assumptions C43_sdl_no_other_errors.
