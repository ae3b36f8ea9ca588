(** * PropTop: C33 — the entry points ParseDoc and ParseSDLDoc. *)
From Coq Require Import Permutation Relations.
From Verif Require Import Base AST Lexer Parser Walker WalkSpec Context Rules CtxProofs RuleProofs RuleSpec QueryProofs SdlProofs SchemaBuild Utils SchemaValidate SchemaSpec
  ValidateProofs SchemaProofs PropParse PropRules PropSdl PropBuild PropSchema Samples Top TopProofs.

(** ** Queries *)
(** What is demanded of a query document. *)
Record query_valid (d : document) (s : option schema) : Prop := mkQv {
  qv_executable : executable d;
  qv_anonymous : forall o, In o (operations d) -> o_name o = [] -> operations d = [o];
  qv_types : forall t, In t (type_refs d) -> (exists td, mget t (sc_types (given s)) = Some td) \/ In t scalar_names;
  qv_directives : forall x, In x (applications d) -> exists def, directive_for (given s) (d_name x) = Some def /\ allowed def (d_loc x);
  qv_directives_once : Forall (@NoDup bytes) (directive_sites d);
  qv_arguments_once : Forall (@NoDup bytes) (argument_sites d);
  qv_fields_once : Forall (@NoDup bytes) (object_sites d);
  qv_variables : forall i x o v, nth_error (doc_defs d) i = Some x -> def_body x = DOp o -> In v (o_vars o) -> used d i (v_name v) }.

Lemma query_errors_iff fok i d s : parse fok i = Doc d -> (c_errors (validate d s) = [] <-> query_valid d s).
Proof.
  intros Hp. pose proof (n_ops_spec fok i d Hp) as Hn.
  set (known := fun t => orb (match mget t (sc_types (given s)) with Some _ => true | None => false end) (inb t scalar_names)).
  assert (Hk : forall t, known t = true <-> (exists td, mget t (sc_types (given s)) = Some td) \/ In t scalar_names).
  { intros u. unfold known. rewrite orb_true_iff, inb_In. destruct (mget u _); split; intros [H|H]; auto; [left; eauto|discriminate|destruct H; discriminate]. }
  pose proof (C26_exact d s) as R1. pose proof (C20_exact d s Hn) as R2. pose proof (C21_exact d s known Hk) as R3. pose proof (C22_exact d s _ C22_ok_exists) as R4.
  destruct (C23_none_iff_unique d s) as (R5 & R6 & R7). split.
  - intros E. assert (X : forall k, reported k (validate d s) = []) by (intros k; unfold reported; rewrite E; reflexivity). rewrite X in R1, R2, R3, R4. specialize (proj1 R5 (X _)). specialize (proj1 R6 (X _)). specialize (proj1 R7 (X _)). clear R5 R6 R7. intros R7 R6 R5.
    assert (Ex : executable d). { intros x Hx. symmetry in R1. rewrite map_filter_nil in R1. specialize (R1 x Hx). unfold is_exec. destruct (def_body x); try discriminate; reflexivity. }
    split; try assumption.
    + intros o Ho En. destruct (operations d) as [|o1 [|o2 os]] eqn:Eo; [destruct Ho|destruct Ho as [<-|[]]; reflexivity|]. cbn [List.length Nat.ltb Nat.leb] in R2. symmetry in R2.
      rewrite map_filter_nil in R2. specialize (R2 o Ho). cbv beta in R2. destruct (bytes_dec (o_name o) []); [discriminate|contradiction].
    + intros t Ht. symmetry in R3. rewrite map_filter_nil in R3. specialize (R3 t Ht). apply Hk. destruct (known t); [reflexivity|discriminate].
    + intros x Hx. symmetry in R4. rewrite flat_map_nil in R4. specialize (R4 x Hx). cbv beta in R4. destruct (directive_for (given s) (d_name x)) as [def|]; [|discriminate]. exists def. split; [reflexivity|].
      apply C22_ok_exists. destruct (negb _); [reflexivity|discriminate].
    + intros j x o v Hj Hb Hv. destruct (C39_variable_usages d s j x (executable_no_stray d Ex) Hj (Ex x (nth_error_In _ _ Hj))) as (l & _ & _ & Hl).
      destruct (in_dec bytes_dec (v_name v) l) as [Hi|Hi]; [apply Hl, Hi|]. exfalso. rewrite Hl in Hi.
      assert (Y : In (EUnusedVariable (v_name v) (o_name o)) (c_errors (validate d s))); [|rewrite E in Y; destruct Y]. apply C19_iff; [exact Ex|]. exists j, x, o, v. auto 6.
  - intros [V1 V2 V3 V4 V5 V6 V7 V8]. destruct (c_errors (validate d s)) as [|e es] eqn:E; [reflexivity|]. exfalso. assert (He : In e (c_errors (validate d s))) by (rewrite E; left; reflexivity).
    pose proof (C43_no_other_errors d s e He) as K.
    assert (X : forall k, reported k (validate d s) = [] -> k e = false) by (intros k R; rewrite reported_nil in R; apply R, He).
    assert (K1 : is_nonexec e = false). { apply X. rewrite R1. apply map_filter_nil. intros x Hx. specialize (V1 x Hx). unfold is_exec in V1. destruct (def_body x); try discriminate; reflexivity. }
    assert (K2 : is_anon e = false). { apply X. rewrite R2. destruct (Nat.ltb 1 (List.length (operations d))) eqn:El; [|reflexivity]. apply map_filter_nil. intros o Ho. destruct (bytes_dec (o_name o) []) as [En|]; [|reflexivity].
      rewrite (V2 o Ho En) in El. discriminate. }
    assert (K3 : is_unknown_type e = false). { apply X. rewrite R3. apply map_filter_nil. intros t Ht. rewrite (proj2 (Hk t) (V3 t Ht)). reflexivity. }
    assert (K4 : is_directive_err e = false). { apply X. rewrite R4. apply flat_map_nil. intros x Hx. destruct (V4 x Hx) as (def & -> & A). apply C22_ok_exists in A. rewrite A. reflexivity. }
    assert (K5 : is_dup_directive e = false) by (apply X, R5, V5). assert (K6 : is_dup_arg e = false) by (apply X, R6, V6). assert (K7 : is_dup_input e = false) by (apply X, R7, V7).
    assert (K8 : is_unused e = false). { destruct e; try reflexivity. exfalso. apply C19_iff in He; [|exact V1]. destruct He as (j & x & o' & vd & Hj & Hb & _ & Hv & <- & Hu). apply Hu. eapply V8; eassumption. }
    unfold query_kinds in K. rewrite K1, K2, K3, K4, K5, K6, K7, K8 in K. discriminate.
Qed.

(** A document is returned exactly when the source parses and the document is valid (and then it is the parsed document, unchanged); *)
Theorem C33_doc_returned_iff : forall fok i s d, parse_doc fok i s = Returned d <-> parse fok i = Doc d /\ query_valid d s.
Proof.
  intros fok i s d. unfold parse_doc. destruct (parse fok i) as [d'|m| |] eqn:E; try (split; [discriminate|intros [H _]; discriminate]).
  rewrite (proj2 (proj2 (C43_read_only d' s))). pose proof (query_errors_iff fok i d' s E) as Q. destruct (c_errors (validate d' s)) as [|e es].
  - split; [intros H; injection H as <-; split; [reflexivity|apply Q; reflexivity]|]. intros [H _]. injection H as <-. reflexivity.
  - split; [discriminate|]. intros [H V]. injection H as <-. apply Q in V. discriminate.
Qed.
Print Assumptions C33_doc_returned_iff.
(** errors are reported, at least one, exactly when it parses and is not valid, and they are the ones of validation; *)
Theorem C33_doc_reported_iff : forall fok i s es, parse_doc fok i s = Reported es <-> exists d, parse fok i = Doc d /\ ~ query_valid d s /\ es = c_errors (validate d s).
Proof.
  intros fok i s es. unfold parse_doc. destruct (parse fok i) as [d'|m| |] eqn:E; try (split; [discriminate|intros (d & H & _); discriminate]).
  rewrite (proj2 (proj2 (C43_read_only d' s))). pose proof (query_errors_iff fok i d' s E) as Q. destruct (c_errors (validate d' s)) as [|e es'] eqn:Ee.
  - split; [discriminate|]. intros (d & H & V & _). injection H as <-. exfalso. apply V, Q. reflexivity.
  - split.
    + intros H. injection H as <-. exists d'. split; [reflexivity|]. split; [|rewrite Ee; reflexivity]. intros V. apply Q in V. discriminate.
    + intros (d & H & _ & ->). injection H as <-. rewrite Ee. reflexivity.
Qed.
Print Assumptions C33_doc_reported_iff.
Theorem C33_doc_reported_nonempty : forall fok i s, parse_doc fok i s <> Reported [].
Proof. intros fok i s H. apply C33_doc_reported_iff in H. destruct H as (d & Hp & V & E). apply V. apply (query_errors_iff fok i d s Hp). symmetry. exact E. Qed.
Print Assumptions C33_doc_reported_nonempty.
(** a parse error is passed on; every call returns; it panics exactly when parsing does (C11). *)
Theorem C33_doc_otherwise : forall fok i s,
  (forall m, parse_doc fok i s = Refused m <-> parse fok i = Error m) /\ parse_doc fok i s <> Never /\ (parse_doc fok i s = Panicked <-> parse fok i = GoPanic).
Proof.
  intros fok i s. unfold parse_doc. pose proof (C10_parse_terminates fok i) as T. destruct (parse fok i) as [d|m| |] eqn:E; try congruence.
  - rewrite (proj2 (proj2 (C43_read_only d s))). destruct (c_errors (validate d s)); (split; [intros m; split; discriminate|]); (split; [discriminate|split; discriminate]).
  - split; [intros m'; split; intros H; injection H as <-; reflexivity|]. split; [discriminate|split; discriminate].
  - split; [intros m; split; discriminate|]. split; [discriminate|split; reflexivity].
Qed.
Print Assumptions C33_doc_otherwise.

(** ** Type systems *)
(** What is demanded of a type system document before a schema is built from it. *)
Record sdl_valid (d : document) (s : option schema) : Prop := mkDv {
  dv_types : forall t, In t (type_refs d) -> (exists td, type_of d s t = Some td) \/ In t scalar_names;
  dv_directives : forall x, In x (applications d) -> exists def, directive_of d s (d_name x) = Some def /\ allowed def (d_loc x);
  dv_directives_once : Forall (@NoDup bytes) (directive_sites d);
  dv_arguments_once : Forall (@NoDup bytes) (argument_sites d);
  dv_fields_once : Forall (@NoDup bytes) (object_sites d);
  (** C27: a second argument is always objected to *)
  dv_arguments : forall x def, In x (applications d) -> directive_of d s (d_name x) = Some def ->
    d_args x = [] \/ exists a, d_args x = [a] /\ In (arg_name a) (map i_name (dd_args def));
  dv_required : forall x def i, In x (applications d) -> directive_of d s (d_name x) = Some def -> In i (dd_args def) ->
    (exists n, i_type i = TNamed n true) \/ (exists t, i_type i = TList t true) -> i_default i = None -> In (i_name i) (map arg_name (d_args x));
  (** C29 *)
  dv_names : forall n, In n (defined_names d) -> ~ exists a b r, n = a :: b :: r /\ (a = "_"%char \/ b = "_"%char);
  dv_extensions : forall x, In x (type_extensions d) -> exists def, type_of d s (t_name x) = Some def /\ t_kind x = t_kind def;
  (** C31 *)
  dv_operations : forall before e after, op_entries d = before ++ e :: after ->
    let '(i, ext, o) := e in
    (ext = true -> root_type (given s) o = None /\ ~ In o (map snd before)) /\ (ext = false -> ~ In (i, false, o) before);
  dv_new_types : NoDup (map t_name (type_definitions d)) /\ forall t, In t (type_definitions d) -> mget (t_name t) (sc_types (given s)) = None;
  dv_new_directives : NoDup (map dd_name (directive_definitions d)) /\ forall x, In x (directive_definitions d) -> mget (dd_name x) (sc_dirs (given s)) = None;
  dv_schema : List.length (schema_definitions d) <= match s with None => 1 | Some _ => 0 end }.

Lemma new_names {A E V} (name : A -> bytes) (m : emap V) (l : list A) (f g : bytes -> E) :
  (map f (filter (fun n => match mget n m with Some _ => true | None => false end) (map name l)) = [] /\
   map g (later (filter (fun n => negb (match mget n m with Some _ => true | None => false end)) (map name l))) = []) <->
  NoDup (map name l) /\ forall t, In t l -> mget (name t) m = None.
Proof.
  assert (Q : (forall t, In t l -> mget (name t) m = None) -> filter (fun n => negb (match mget n m with Some _ => true | None => false end)) (map name l) = map name l).
  { intros H. induction l as [|x l IH]; [reflexivity|]. cbn [map filter]. rewrite (H x (or_introl eq_refl)). cbn [negb]. f_equal. apply IH. intros t Ht. apply H. right. exact Ht. }
  split.
  - intros [H1 H2]. rewrite map_filter_nil in H1. assert (H : forall t, In t l -> mget (name t) m = None).
    { intros t Ht. specialize (H1 (name t) (in_map name l t Ht)). cbv beta in H1. destruct (mget (name t) m); [discriminate|reflexivity]. }
    split; [|exact H]. rewrite (Q H) in H2. apply later_nil. destruct (later (map name l)); [reflexivity|discriminate].
  - intros [H1 H2]. split.
    + apply map_filter_nil. intros n Hn. apply in_map_iff in Hn. destruct Hn as (t & <- & Ht). rewrite (H2 t Ht). reflexivity.
    + rewrite (Q H2). apply later_nil in H1. rewrite H1. reflexivity.
Qed.
Lemma with_before_nil {X Y} (f : list X -> X -> list Y) l : with_before f [] l = [] <-> forall a e b, l = a ++ e :: b -> f a e = [].
Proof.
  assert (G : forall l pre, with_before f pre l = [] <-> forall a e b, l = a ++ e :: b -> f (pre ++ a) e = []).
  { clear. induction l as [|x l IH]; intros pre; cbn [with_before].
    - split; [|reflexivity]. intros _ a e b H. destruct a; discriminate.
    - split.
      + intros H. apply app_eq_nil in H. destruct H as [H1 H2]. intros [|y a] e b E; cbn [app] in E; injection E as -> E; [rewrite app_nil_r; exact H1|].
        rewrite (IH (pre ++ [y])) in H2. specialize (H2 a e b E). rewrite <- app_assoc in H2. exact H2.
      + intros H. pose proof (H [] x l eq_refl) as H0. rewrite app_nil_r in H0. rewrite H0. cbn. apply IH. intros a e b ->. rewrite <- app_assoc. apply (H (x :: a) e b). reflexivity. }
  apply (G l []).
Qed.
Lemma no_reports (c : ctx) : c_errors c = [] <-> forall k, reported k c = [].
Proof.
  split; [intros E k; unfold reported; rewrite E; reflexivity|]. intros H. specialize (H (fun _ => true)). unfold reported in H. destruct (c_errors c); [reflexivity|].
  cbn [filter rev] in H. apply app_eq_nil in H. destruct H; discriminate.
Qed.
Lemma sv_R1 d s : reported is_unknown_type (validate_sdl d s) = [] <-> forall t, In t (type_refs d) -> (exists td, type_of d s t = Some td) \/ In t scalar_names.
Proof.
  set (known := fun t => orb (match type_of d s t with Some _ => true | None => false end) (inb t scalar_names)).
  assert (Hk : forall t, known t = true <-> (exists td, type_of d s t = Some td) \/ In t scalar_names).
  { intros u. unfold known. rewrite orb_true_iff, inb_In. destruct (type_of d s u); split; intros [H|H]; auto; [left; eauto|discriminate|destruct H; discriminate]. }
  rewrite (C21_sdl_exact d s known Hk), map_filter_nil. split; intros H t Ht; specialize (H t Ht); [apply Hk; destruct (known t); [reflexivity|discriminate]|apply Hk in H; rewrite H; reflexivity].
Qed.
Lemma sv_R2 d s : reported is_directive_err (validate_sdl d s) = [] <-> forall x, In x (applications d) -> exists def, directive_of d s (d_name x) = Some def /\ allowed def (d_loc x).
Proof.
  rewrite (C22_sdl_exact d s _ C22_ok_exists), flat_map_nil. split; intros H x Hx; specialize (H x Hx); cbv beta in *.
    - destruct (directive_of d s (d_name x)) as [def|]; [|discriminate]. exists def. split; [reflexivity|]. apply C22_ok_exists. destruct (negb _); [reflexivity|discriminate].
    - destruct H as (def & -> & A). apply C22_ok_exists in A. rewrite A. reflexivity.
Qed.
Lemma sv_R6 d s : reported is_unknown_arg (validate_sdl d s) = [] <-> forall x def, In x (applications d) -> directive_of d s (d_name x) = Some def -> d_args x = [] \/ exists a, d_args x = [a] /\ In (arg_name a) (map i_name (dd_args def)).
Proof.
  rewrite C27_actual, flat_map_nil. split.
    - intros H x def Hx Ed. specialize (H x Hx). cbv beta in H. rewrite Ed in H. apply app_eq_nil in H. destruct H as [H1 H2]. destruct (d_args x) as [|a [|b l]]; [left; reflexivity| |discriminate H2].
      right. exists a. split; [reflexivity|]. unfold unknown_arguments in H1. rewrite map_filter_nil in H1. specialize (H1 a (or_introl eq_refl)). cbv beta in H1. destruct (in_dec bytes_dec (arg_name a) _); [assumption|discriminate].
    - intros H x Hx. destruct (directive_of d s (d_name x)) as [def|] eqn:Ed; [|reflexivity]. destruct (H x def Hx Ed) as [->|(a & -> & Ha)]; [reflexivity|].
      unfold unknown_arguments. cbn [firstn tl map filter]. destruct (in_dec bytes_dec (arg_name a) _); [reflexivity|contradiction].
Qed.
Lemma sv_R7 d s : reported is_missing_arg (validate_sdl d s) = [] <-> forall x def i, In x (applications d) -> directive_of d s (d_name x) = Some def -> In i (dd_args def) ->
    (exists n, i_type i = TNamed n true) \/ (exists t, i_type i = TList t true) -> i_default i = None -> In (i_name i) (map arg_name (d_args x)).
Proof.
  rewrite C28_exact, flat_map_nil. split.
    - intros H x def i Hx Ed Hi Hn Hd. specialize (H x Hx). cbv beta in H. rewrite Ed in H. rewrite map_filter_nil in H. specialize (H i Hi). unfold required_argument in H. rewrite Hd in H.
      destruct (in_dec bytes_dec (i_name i) (map arg_name (d_args x))); [assumption|]. destruct Hn as [(n' & Et)|(t & Et)]; rewrite Et in H; discriminate.
    - intros H x Hx. destruct (directive_of d s (d_name x)) as [def|] eqn:Ed; [|reflexivity]. apply map_filter_nil. intros i Hi. specialize (H x def i Hx Ed Hi). unfold required_argument.
      destruct (i_type i) as [n [|]|t [|]|]; try reflexivity; (destruct (i_default i); [reflexivity|]); (destruct (in_dec bytes_dec (i_name i) (map arg_name (d_args x))) as [|N]; [reflexivity|]); exfalso; apply N, H; eauto.
Qed.
Lemma sv_R8 d s : reported is_underscores (validate_sdl d s) = [] <-> forall n, In n (defined_names d) -> ~ exists a b r, n = a :: b :: r /\ (a = "_"%char \/ b = "_"%char).
Proof.
  rewrite (C29_actual d s bad_name bad_name_spec), map_filter_nil. split; intros H n Hn; specialize (H n Hn).
    - rewrite <- bad_name_spec. congruence.
    - rewrite <- bad_name_spec in H. destruct (bad_name n); [exfalso; apply H; reflexivity|reflexivity].
Qed.
Lemma sv_R10 d s : reported is_optype_err (validate_sdl d s) = [] <-> forall before e after, op_entries d = before ++ e :: after ->
    let '(i, ext, o) := e in (ext = true -> root_type (given s) o = None /\ ~ In o (map snd before)) /\ (ext = false -> ~ In (i, false, o) before).
Proof.
  rewrite C31_exact, with_before_nil. split; intros H a e b Eq; specialize (H a e b Eq); destruct e as [[i ext] o]; cbn [optype_error] in *.
    - destruct ext; (split; [intros X; try discriminate X|intros X; try discriminate X]).
      + destruct (root_type (given s) o); [discriminate|]. split; [reflexivity|]. destruct (in_dec opkind_dec o (map snd a)); [discriminate|assumption].
      + destruct (in_dec entry_dec (i, false, o) a); [discriminate|assumption].
    - destruct H as [H1 H2]. destruct ext.
      + destruct (H1 eq_refl) as [-> N]. destruct (in_dec opkind_dec o (map snd a)); [contradiction|reflexivity].
      + destruct (in_dec entry_dec (i, false, o) a); [exfalso; apply H2; auto|reflexivity].
Qed.
Lemma sv_R11 d s : (reported is_existed_type (validate_sdl d s) = [] /\ reported is_dup_type (validate_sdl d s) = []) <-> NoDup (map t_name (type_definitions d)) /\ forall t, In t (type_definitions d) -> mget (t_name t) (sc_types (given s)) = None.
Proof.
  destruct (C32_types d s) as [-> ->]. unfold in_schema_type. apply new_names.
Qed.
Lemma sv_R12 d s : (reported is_existed_dir (validate_sdl d s) = [] /\ reported is_dup_dir (validate_sdl d s) = []) <-> NoDup (map dd_name (directive_definitions d)) /\ forall t, In t (directive_definitions d) -> mget (dd_name t) (sc_dirs (given s)) = None.
Proof.
  destruct (C32_directives d s) as [-> ->]. unfold in_schema_dir. apply new_names.
Qed.
Lemma sv_R13 d s : reported is_schema_err (validate_sdl d s) = [] <-> List.length (schema_definitions d) <= match s with None => 1 | Some _ => 0 end.
Proof.
  rewrite C32_schema_definitions. destruct s as [s|]; destruct (schema_definitions d) as [|x [|y l]]; cbn [map tl List.length]; split; intros H; try reflexivity; try discriminate; try lia; exfalso; lia.
Qed.
Lemma sdl_errors_iff d s : c_errors (validate_sdl d s) = [] <-> sdl_valid d s.
Proof.
  pose proof (no_reports (validate_sdl d s)) as E.
  pose proof (sv_R1 d s) as R1.
  pose proof (sv_R2 d s) as R2.
  destruct (C23_sdl_exact d s) as (R3 & R4 & R5).
  pose proof (sv_R6 d s) as R6.
  pose proof (sv_R7 d s) as R7.
  pose proof (sv_R8 d s) as R8.
  pose proof (C30_none_iff d s) as R9.
  pose proof (sv_R10 d s) as R10.
  pose proof (sv_R11 d s) as R11.
  pose proof (sv_R12 d s) as R12.
  pose proof (sv_R13 d s) as R13.
  rewrite E. split.
  - intros H. pose proof (H is_dup_directive) as H3. rewrite R3 in H3. apply sites_nil in H3. pose proof (H is_dup_arg) as H4. rewrite R4 in H4. apply sites_nil in H4. pose proof (H is_dup_input) as H5. rewrite R5 in H5. apply sites_nil in H5.
    split; [apply R1, H|apply R2, H|exact H3|exact H4|exact H5|apply R6, H|apply R7, H|apply R8, H|apply R9, H|apply R10, H|apply R11; split; apply H|apply R12; split; apply H|apply R13, H].
  - intros [V1 V2 V3 V4 V5 V6 V7 V8 V9 V10 V11 V12 V13]. apply E. destruct (c_errors (validate_sdl d s)) as [|e es] eqn:Ee; [reflexivity|]. exfalso. assert (He : In e (c_errors (validate_sdl d s))) by (rewrite Ee; left; reflexivity).
    pose proof (C43_sdl_no_other_errors d s e He) as K.
    assert (X : forall k, reported k (validate_sdl d s) = [] -> k e = false) by (intros k R; rewrite reported_nil in R; apply R, He).
    apply R11 in V11. destruct V11 as [V11 V11']. apply R12 in V12. destruct V12 as [V12 V12'].
    unfold sdl_kinds in K. rewrite (X is_optype_err), (X is_dup_directive), (X is_dup_arg), (X is_dup_input), (X is_unknown_arg), (X is_directive_err), (X is_unknown_type), (X is_underscores), (X is_ext_err), (X is_missing_arg),
      (X is_dup_type), (X is_existed_type), (X is_dup_dir), (X is_existed_dir), (X is_schema_err) in K; [discriminate|apply R13, V13|exact V12|exact V12'|exact V11|exact V11'|apply R7, V7|apply R9, V9|apply R8, V8|apply R1, V1|apply R2, V2|apply R6, V6|rewrite R5; apply sites_nil, V5|rewrite R4; apply sites_nil, V4|rewrite R3; apply sites_nil, V3|apply R10, V10].
Qed.

(** The orders in which the maps are visited are possible ones. *)
Definition orders (d : document) (s : option schema) (ord : emap (list tydef)) (od : emap dirdef) (ot oi : emap tydef) : Prop :=
  visits d ord /\ visits_map od (sc_dirs (built d s ord)) /\ visits_map ot (sc_types (built d s ord)) /\ visits_map oi (sc_types (built d s ord)).
(** A schema is returned exactly when the source parses, the document is valid and the schema built from it (C34, C35) is
    well-formed (C36, C40), without the types on which the check panics or does not return. *)
Theorem C33_sdl_returned_iff : forall fok peq ord od ot oi i s sch, (forall a b, peq a b = true -> a = b) ->
  (forall d, parse fok i = Doc d -> orders d s ord od ot oi) ->
  ((exists fuel, parse_sdl_doc fok peq fuel ord od ot oi i s = Returned sch) <->
   exists d, parse fok i = Doc d /\ sdl_valid d s /\ sch = built d s ord /\ whole_types sch /\ ~ has_undecided sch /\ forall e, ~ violation sch e).
Proof.
  intros fok peq ord od ot oi i s sch P O. unfold parse_sdl_doc. destruct (parse fok i) as [d|m| |] eqn:E; try (split; [intros (f & H); discriminate|intros (d & H & _); discriminate]).
  destruct (O d eq_refl) as (Ov & Od & Ot & Oi). rewrite (proj2 (proj2 (C43_sdl_read_only d s))). pose proof (sdl_errors_iff d s) as Q.
  pose proof (C34_valid_targets d s) as T. pose proof (fun T => C34_no_crash d s ord Ov T) as N. pose proof (fun T => built_named fok i d s ord E Ov T) as K. fold (built d s ord). cbv zeta.
  destruct (c_errors (validate_sdl d s)) as [|e0 es0].
  - destruct (T eq_refl) as [Td _]. destruct (N Td) as [-> ->]. specialize (K Td). assert (V : sdl_valid d s) by (apply Q; reflexivity). split.
    + intros (fuel & H). destruct (validate_schema peq fuel od ot oi (built d s ord) []) as [es'| |] eqn:Ev; try discriminate. destruct es' as [|e es']; [|discriminate]. injection H as <-.
      pose proof (returns_whole peq fuel od ot oi _ _ _ Ot Ev) as W. exists d. repeat (split; [assumption || reflexivity|]). split; [|apply (C36_schema_valid_iff peq fuel od ot oi _ [] P Od Ot Oi K W Ev); reflexivity].
      intros U. destruct (C36_schema_terminates_iff peq od ot oi _ P Od Ot Oi K W) as [_ L]. rewrite (L U fuel []) in Ev. discriminate.
    + intros (d' & H & _ & -> & W & U & X). injection H as <-. destruct (C36_schema_terminates_iff peq od ot oi _ P Od Ot Oi K W) as [L _]. destruct (L U) as (k & R). destruct (R k (le_n k) []) as (es' & Ev).
      exists k. rewrite Ev. rewrite (proj2 (C36_schema_valid_iff peq k od ot oi _ es' P Od Ot Oi K W Ev) X). reflexivity.
  - split; [intros (f & H); discriminate|]. intros (d' & H & V & _). injection H as <-. apply Q in V. discriminate.
Qed.
Print Assumptions C33_sdl_returned_iff.
(** Otherwise errors: those of the document (C21-C32), or all the violations of the schema (C36, C40). *)
Theorem C33_sdl_reported : forall fok peq ord od ot oi i s, (forall a b, peq a b = true -> a = b) ->
  (forall d, parse fok i = Doc d -> orders d s ord od ot oi) ->
  (forall fuel es, parse_sdl_doc fok peq fuel ord od ot oi i s = Reported es -> es <> [] /\ exists d, parse fok i = Doc d /\
     (~ sdl_valid d s /\ es = c_errors (validate_sdl d s) \/
      sdl_valid d s /\ forall e, In e es <-> violation (built d s ord) e)) /\
  (forall d, parse fok i = Doc d -> ~ sdl_valid d s -> forall fuel, parse_sdl_doc fok peq fuel ord od ot oi i s = Reported (c_errors (validate_sdl d s))) /\
  (forall d e, parse fok i = Doc d -> sdl_valid d s -> whole_types (built d s ord) -> ~ has_undecided (built d s ord) -> violation (built d s ord) e ->
     exists fuel es, parse_sdl_doc fok peq fuel ord od ot oi i s = Reported es).
Proof.
  intros fok peq ord od ot oi i s P O. unfold parse_sdl_doc. destruct (parse fok i) as [d|m| |] eqn:E;
    try (split; [intros fuel es H; discriminate|]; split; [intros d H; discriminate|intros d e H; discriminate]).
  destruct (O d eq_refl) as (Ov & Od & Ot & Oi). rewrite (proj2 (proj2 (C43_sdl_read_only d s))). pose proof (sdl_errors_iff d s) as Q.
  pose proof (C34_valid_targets d s) as T. pose proof (fun T => C34_no_crash d s ord Ov T) as N. pose proof (fun T => built_named fok i d s ord E Ov T) as K. fold (built d s ord). cbv zeta.
  destruct (c_errors (validate_sdl d s)) as [|e0 es0] eqn:Ee.
  - destruct (T eq_refl) as [Td _]. destruct (N Td) as [-> ->]. specialize (K Td). assert (V : sdl_valid d s) by (apply Q; reflexivity). split; [|split].
    + intros fuel es H. destruct (validate_schema peq fuel od ot oi (built d s ord) []) as [es'| |] eqn:Ev; try discriminate. destruct es' as [|e es']; [discriminate|]. injection H as <-. split; [discriminate|].
      exists d. split; [reflexivity|]. right. split; [exact V|]. intros e'. rewrite (C36_schema_errors_exact peq fuel od ot oi _ [] _ P Od Ot Oi K (returns_whole peq fuel od ot oi _ _ _ Ot Ev) Ev e'). cbn. tauto.
    + intros d' H NV. injection H as <-. contradiction.
    + intros d' e H _ W U X. injection H as <-. destruct (C36_schema_terminates_iff peq od ot oi _ P Od Ot Oi K W) as [L _]. destruct (L U) as (k & R). destruct (R k (le_n k) []) as (es' & Ev).
      exists k. rewrite Ev. destruct es' as [|e1 es']; [|eexists; reflexivity]. exfalso. apply (proj1 (C36_schema_valid_iff peq k od ot oi _ [] P Od Ot Oi K W Ev) eq_refl e X).
  - split; [|split].
    + intros fuel es H. injection H as <-. split; [discriminate|]. exists d. split; [reflexivity|]. left. split; [|symmetry; exact Ee]. intros V. apply Q in V. discriminate.
    + intros d' H _ fuel. injection H as <-. rewrite Ee. reflexivity.
    + intros d' e H V. injection H as <-. apply Q in V. discriminate.
Qed.
Print Assumptions C33_sdl_reported.
(** A parse error is passed on.  The call never returns exactly when validation reaches a pair of types that IsTypeSubTypeOf hangs
    on (for documents without broken list types), and without those types it does not panic unless parsing does. *)
Theorem C33_sdl_otherwise : forall fok peq ord od ot oi i s, (forall a b, peq a b = true -> a = b) ->
  (forall d, parse fok i = Doc d -> orders d s ord od ot oi) ->
  (forall fuel m, parse_sdl_doc fok peq fuel ord od ot oi i s = Refused m <-> parse fok i = Error m) /\
  ((forall d, parse fok i = Doc d -> sdl_valid d s -> whole_types (built d s ord)) ->
     ((forall fuel, parse_sdl_doc fok peq fuel ord od ot oi i s = Never) <-> exists d, parse fok i = Doc d /\ sdl_valid d s /\ has_undecided (built d s ord)) /\
     (forall fuel, parse_sdl_doc fok peq fuel ord od ot oi i s = Panicked <-> parse fok i = GoPanic)).
Proof.
  intros fok peq ord od ot oi i s P O. unfold parse_sdl_doc. pose proof (C10_parse_terminates fok i) as Dv. destruct (parse fok i) as [d|m| |] eqn:E; try congruence.
  2:{ split; [intros _ m'; split; intros H; injection H as <-; reflexivity|]. intros _. split; [split; [intros H; discriminate (H 0)|intros (d & H & _); discriminate]|intros _; split; discriminate]. }
  2:{ split; [intros _ m'; split; discriminate|]. intros _. split; [split; [intros H; discriminate (H 0)|intros (d & H & _); discriminate]|intros _; split; reflexivity]. }
  destruct (O d eq_refl) as (Ov & Od & Ot & Oi). rewrite (proj2 (proj2 (C43_sdl_read_only d s))). pose proof (sdl_errors_iff d s) as Q.
  pose proof (C34_valid_targets d s) as T. pose proof (fun T => C34_no_crash d s ord Ov T) as N. pose proof (fun T => built_named fok i d s ord E Ov T) as K. fold (built d s ord). cbv zeta.
  destruct (c_errors (validate_sdl d s)) as [|e0 es0].
  - destruct (T eq_refl) as [Td _]. destruct (N Td) as [-> ->]. specialize (K Td). assert (V : sdl_valid d s) by (apply Q; reflexivity). split.
    + intros fuel m. destruct (validate_schema peq fuel od ot oi (built d s ord) []) as [[|e es']| |]; split; discriminate.
    + intros W. specialize (W d eq_refl V). destruct (C36_schema_terminates_iff peq od ot oi _ P Od Ot Oi K W) as [L1 L2]. split.
      * split.
        -- intros H. exists d. split; [reflexivity|]. split; [exact V|]. assert (X : forall fuel, validate_schema peq fuel od ot oi (built d s ord) [] = GLoop).
           { intros fuel. specialize (H fuel). destruct (validate_schema peq fuel od ot oi (built d s ord) []) as [[|e es']| |]; try discriminate. reflexivity. }
           destruct (undecided_dec peq od ot oi (built d s ord) P Od Ot Oi K W) as [U|U]; [exact U|]. destruct (L1 U) as (k & R). destruct (R k (le_n k) []) as (es' & Ev). rewrite X in Ev. discriminate.
        -- intros (d' & H & _ & U) fuel. injection H as <-. rewrite (L2 U fuel []). reflexivity.
      * intros fuel. pose proof (C36_never_panics_on_whole_types peq fuel od ot oi _ [] Ot W) as Np. destruct (validate_schema peq fuel od ot oi (built d s ord) []) as [[|e es']| |]; split; try discriminate. congruence.
  - split; [intros fuel m; split; discriminate|]. intros _. split; [|intros fuel; split; discriminate]. split; [intros H; discriminate (H 0)|]. intros (d' & H & V & _). injection H as <-. apply Q in V. discriminate.
Qed.
Print Assumptions C33_sdl_otherwise.
(** Such orders exist for every document. *)
Theorem C33_orders_exist : forall d s, exists ord od ot oi, orders d s ord od ot oi.
Proof. intros d s. exists (ord_of d s). do 3 eexists. split; [apply ord_of_visits|]. split; [apply dedup_visits|]. split; apply dedup_visits. Qed.
Print Assumptions C33_orders_exist.

(** ** Examples *)
Definition parse_sdl_with (fuel : nat) (i : string) (s : option schema) : ending schema :=
  let d := src i in let ord := ord_of d s in let b := built d s ord in parse_sdl_doc anyfloat noptr fuel ord (dedup (sc_dirs b)) (dedup (sc_types b)) (dedup (sc_types b)) (B i) s.
Definition good_sdl : string := "interface Node {id:ID!} type User implements Node @deprecated2 {id:ID! name:String} directive @deprecated2 on OBJECT type Query {me:User} extend type Query {n:[Node!]}".
Example C33_nonvacuous :
  (exists d, parse_doc anyfloat (B "query Q($a:Int){f(a:$a)@skip(if:true) ...F} fragment F on String {g}") None = Returned d /\ List.length (doc_defs d) = 2) /\
  (exists es, parse_doc anyfloat (B "query Q($a:Int){f} {g(a:1 a:2)}") None = Reported es /\ map message es = map B ["There can be only one argument named ""a""."; "This anonymous operation must be the only defined operation."; "Variable a is never used in operation Q"]%string) /\
  (exists m, parse_doc anyfloat (B "{a") None = Refused m) /\ parse_doc anyfloat (B "fragment") None = Panicked /\
  (exists sch, parse_sdl_with 9 good_sdl None = Returned sch /\ option_map t_name (mget (B "User") (sc_types sch)) = Some (B "User")) /\
  (exists es, parse_sdl_with 9 "type A{f:B} type A{f:ID}" None = Reported es /\ map message es = map B ["Unknown type ""B""."; "There can be only one type named A."]%string) /\
  (exists es, parse_sdl_with 9 "type A{f:ID}" None = Reported es /\ map message es = map B ["Query root type must be provided."]%string) /\
  (exists m, parse_sdl_with 9 "type {" None = Refused m).
Proof.
  split; [eexists; split; vm_compute; reflexivity|]. split; [eexists; split; vm_compute; reflexivity|]. split; [eexists; vm_compute; reflexivity|]. split; [vm_compute; reflexivity|].
  split; [eexists; split; vm_compute; reflexivity|]. split; [eexists; split; vm_compute; reflexivity|]. split; [eexists; split; vm_compute; reflexivity|]. eexists; vm_compute; reflexivity.
Qed.
(** The call panics, or never returns, on these sources. *)
Lemma never_check i d : parse anyfloat i = Doc d -> let b := built d None (ord_of d None) in c_errors (validate_sdl d None) = [] -> whole_types b -> has_undecided b ->
  forall fuel, parse_sdl_doc anyfloat noptr fuel (ord_of d None) (dedup (sc_dirs b)) (dedup (sc_types b)) (dedup (sc_types b)) i None = Never.
Proof.
  intros E b V W U. destruct (C33_sdl_otherwise anyfloat noptr (ord_of d None) (dedup (sc_dirs b)) (dedup (sc_types b)) (dedup (sc_types b)) i None) as [_ H]; [discriminate| |].
  { intros d' E'. rewrite E in E'. injection E' as <-. split; [apply ord_of_visits|split; [apply dedup_visits|split; apply dedup_visits]]. }
  destruct H as [H _]; [intros d' E' _; rewrite E in E'; injection E' as <-; exact W|]. apply H. exists d. split; [exact E|]. split; [apply sdl_errors_iff, V|exact U].
Qed.
Lemma s_loop_undecided : has_undecided s_loop.
Proof.
  assert (W : whole_types s_loop) by (apply whole_check; vm_compute; reflexivity). assert (N : kind_of s_loop [] = None) by (vm_compute; reflexivity).
  destruct (undecided_dec noptr (sc_dirs s_loop) (sc_types s_loop) (sc_types s_loop) s_loop) as [U|U]; try assumption; [discriminate|apply visits_check; vm_compute; reflexivity|apply visits_check; vm_compute; reflexivity|apply visits_check; vm_compute; reflexivity|].
  destruct (C36_schema_terminates_iff noptr (sc_dirs s_loop) (sc_types s_loop) (sc_types s_loop) s_loop) as [L _]; try assumption; [discriminate|apply visits_check; vm_compute; reflexivity|apply visits_check; vm_compute; reflexivity|apply visits_check; vm_compute; reflexivity|].
  destruct (L U) as (k & R). destruct (R k (le_n k) []) as (es' & Ev). rewrite C36_schema_terminates_refuted in Ev. discriminate.
Qed.
Theorem C33_always_returns_refuted : (forall fuel, parse_sdl_with fuel "type Query{f:[ }" None = Panicked) /\
  forall fuel, parse_sdl_with fuel "interface I {f:J} interface J {g:ID} type A implements I {f:B} type B {g:ID} type Query {a:A}" None = Never.
Proof.
  split; [intros fuel; vm_compute; reflexivity|]. unfold parse_sdl_with. cbv zeta. apply never_check; [vm_compute; reflexivity|vm_compute; reflexivity|apply whole_check; vm_compute; reflexivity|].
  assert (E : built (src "interface I {f:J} interface J {g:ID} type A implements I {f:B} type B {g:ID} type Query {a:A}") None (ord_of (src "interface I {f:J} interface J {g:ID} type A implements I {f:B} type B {g:ID} type Query {a:A}") None) = s_loop) by (vm_compute; reflexivity).
  rewrite E. apply s_loop_undecided.
Qed.
Print Assumptions C33_always_returns_refuted.
