(** * MessageProofs: the errors of a parsed document are about names. *)
From Verif Require Import Base AST LexSpec Walker WalkSpec Context Rules CtxProofs RuleProofs RuleSpec QueryProofs SdlProofs PropRules PropSdl SchemaSpec WellFormed NameTokens GoodNodes Messages.

Lemma proper_word n : proper_name n -> word n.
Proof.
  intros (c & r & -> & Hc & Hr). assert (F : Forall (fun b => letter (zb b) \/ digit (zb b)) (c :: r)) by (constructor; [left; exact Hc|exact Hr]).
  rewrite Forall_forall in F. split; intros H; apply F in H; unfold letter, digit in H; rewrite zb_bz in H; lia.
Qed.
Lemma word_app a b : word a -> word b -> word (a ++ b).
Proof. intros [H1 H2] [H3 H4]. split; rewrite in_app_iff; tauto. Qed.
Lemma name_word i n : name_in i n -> word n.
Proof.
  intros (x & r & _ & [H|(p & b & -> & H & Hb)]); [apply proper_word, H|]. apply proper_word in H. destruct H as [H1 H2].
  split; rewrite in_app_iff; intros [H|[->|[]]]; auto; rewrite zb_bz in Hb; lia.
Qed.
Lemma word_nil : word []. Proof. split; intros []. Qed.
Ltac lit := let F := fresh in split; intros F; repeat (destruct F as [F|F]; [discriminate F|]); exact F.
Lemma type_word (ident : bytes -> Prop) (IW : forall n, ident n -> word n) t : wf_type ident t -> word (ty_string t).
Proof.
  induction t as [n nn|t IH nn|]; intros H; cbn [wf_type ty_string] in *.
  - apply word_app; [apply IW, H|]. destruct nn; lit.
  - repeat apply word_app; [lit|apply IH, H|lit|]. destruct nn; lit.
  - apply word_nil.
Qed.
Lemma optional_word (ident : bytes -> Prop) (IW : forall n, ident n -> word n) n : optional_ident ident n -> word n.
Proof. intros [-> |H]; [apply word_nil|apply IW, H]. Qed.

(** What is assumed of a schema that is given: the arguments of its directives are called and typed by words. *)
Definition wordy (s : option schema) : Prop :=
  forall n x i, mget n (sc_dirs (given s)) = Some x -> In i (dd_args x) -> word (i_name i) /\ word (ty_string (i_type i)).
Lemma wordy_none : wordy None. Proof. intros n x i H. discriminate H. Qed.

Section Errors.
Variable ident : bytes -> Prop.
Hypothesis IW : forall n, ident n -> word n.
Variable float : bytes -> Prop.
Variable d : document.
Hypothesis W : wf_document ident float d.
Local Notation good := (good ident float).
Lemma node_good n : In n (nodes d) -> good n. Proof. apply good_nodes, W. Qed.
Lemma def_good x : In x (doc_defs d) -> wf_body ident float (def_body x).
Proof. destruct W as [_ H]. rewrite Forall_forall in H. apply H. Qed.
Lemma later_In l x : In x (later l) -> In x l.
Proof. unfold later. intros H. apply in_map_iff in H. destruct H as ([i y] & <- & H). apply filter_In in H. destruct H as [H _]. apply in_combine_r in H. exact H. Qed.
Lemma application_good x : In x (applications d) -> word (d_name x) /\ (forall a, In a (d_args x) -> word (arg_name a)) /\ placed (d_loc x).
Proof.
  unfold applications. intros H. apply in_flat_map in H. destruct H as (n & Hn & H). apply node_good in Hn. destruct n; try destruct H. 2:{ destruct H. } subst.
  cbn in Hn. destruct Hn as (p & P & Hn). apply Forall_inv in Hn. destruct Hn as (A & B & C). split; [apply IW, A|]. split; [|rewrite C; exact P].
  intros a Ha. unfold wf_arguments in B. rewrite Forall_forall in B. apply IW, B, Ha.
Qed.
Lemma site_good l n : In l (directive_sites d) -> In n l -> word n.
Proof.
  unfold directive_sites. intros H Hi. apply in_flat_map in H. destruct H as (m & Hm & H). apply node_good in Hm. destruct m; try destruct H. 2:{ destruct H. } subst.
  apply in_map_iff in Hi. destruct Hi as (x & <- & Hi). destruct Hm as (p & P & Hm). unfold wf_directives in Hm. rewrite Forall_forall in Hm. apply IW, (Hm x Hi).
Qed.
Lemma args_word l n : wf_arguments ident float l -> In n (map arg_name l) -> word n.
Proof. intros H Hi. apply in_map_iff in Hi. destruct Hi as (x & <- & Hi). unfold wf_arguments in H. rewrite Forall_forall in H. apply IW, (H x Hi). Qed.
Lemma inputs_word p l n : Forall (wf_input ident float p) l -> In n (map i_name l) -> word n.
Proof. intros H Hi. apply in_map_iff in Hi. destruct Hi as (x & <- & Hi). rewrite Forall_forall in H. apply IW, (H x Hi). Qed.
Lemma arg_site_good l n : In l (argument_sites d) -> In n l -> word n.
Proof.
  unfold argument_sites. intros H Hi. apply in_flat_map in H. destruct H as (m & Hm & H). apply node_good in Hm. destruct m; try (destruct H; fail).
  - destruct s; try (destruct H; fail). destruct H as [<-|[]]. cbn in Hm. inversion Hm; subst. eapply args_word; eassumption.
  - destruct H as [<-|[]]. destruct Hm as (p & P & Hm). apply Forall_inv in Hm. destruct Hm as (A & B & C). eapply args_word; eassumption.
  - destruct H as [<-|[]]. cbn in Hm. eapply inputs_word; [apply Hm|exact Hi].
  - destruct H as [<-|[]]. cbn in Hm. eapply inputs_word; [apply Hm|exact Hi].
Qed.
Lemma object_site_good l n : In l (object_sites d) -> In n l -> word n.
Proof.
  unfold object_sites. intros H Hi. apply in_flat_map in H. destruct H as (m & Hm & H). apply node_good in Hm. destruct m; try (destruct H; fail).
  destruct v; try (destruct H; fail). destruct H as [<-|[]]. cbn in Hm. inversion Hm as [| | | | | | | |? F]; subst. apply in_map_iff in Hi. destruct Hi as (x & <- & Hi).
  rewrite Forall_forall in F. apply IW, (F x Hi).
Qed.
Lemma type_ref_good n : In n (type_refs d) -> word n.
Proof.
  unfold type_refs. intros H. apply in_flat_map in H. destruct H as (m & Hm & H). apply node_good in Hm. destruct m; try (destruct H; fail).
  destruct t; try (destruct H; fail). destruct H as [<-|[]]. apply IW, Hm.
Qed.
Lemma defined_good n : In n (defined_names d) -> word n.
Proof.
  unfold defined_names. intros H. apply in_flat_map in H. destruct H as (m & Hm & H). apply node_good in Hm. destruct m; try (destruct H; fail); destruct H as [<-|[]]; apply IW; try apply Hm.
  destruct Hm as (p & _ & Hm). apply Hm.
Qed.
Lemma in_defs {X} (f : body -> list X) x : In x (flat_map (fun y => f (def_body y)) (doc_defs d)) -> exists b, wf_body ident float b /\ In x (f b).
Proof. intros H. apply in_flat_map in H. destruct H as (y & Hy & H). exists (def_body y). split; [apply def_good, Hy|exact H]. Qed.
Lemma type_definition_good t : In t (type_definitions d) -> word (t_name t).
Proof. intros H. apply (in_defs (fun b => match b with DType t => [t] | _ => [] end)) in H. destruct H as ([] & B & H); try (destruct H; fail). destruct H as [<-|[]]. apply IW, B. Qed.
Lemma type_extension_good t : In t (type_extensions d) -> word (t_name t).
Proof. intros H. apply (in_defs (fun b => match b with XType t => [t] | _ => [] end)) in H. destruct H as ([] & B & H); try (destruct H; fail). destruct H as [<-|[]]. apply IW, B. Qed.
Lemma directive_definition_good x : In x (directive_definitions d) -> word (dd_name x) /\ forall i, In i (dd_args x) -> word (i_name i) /\ word (ty_string (i_type i)).
Proof.
  intros H. apply (in_defs (fun b => match b with DDir t => [t] | _ => [] end)) in H. destruct H as ([] & B & H); try (destruct H; fail). destruct H as [<-|[]].
  destruct B as (A & B & _). split; [apply IW, A|]. intros i Hi. rewrite Forall_forall in B. destruct (B i Hi) as (I1 & I2 & _). split; [apply IW, I1|apply (type_word ident IW), I2].
Qed.

Lemma dup_worded (k : bytes -> err) ls e : (forall n, word n -> worded (k n)) -> (forall l n, In l ls -> In n l -> word n) ->
  In e (flat_map (fun l => map k (later l)) ls) -> worded e.
Proof.
  intros K G H. apply in_flat_map in H. destruct H as (l & Hl & H). apply in_map_iff in H. destruct H as (n & <- & H). apply K, (G l n Hl). apply later_In, H.
Qed.
Lemma directive_worded (look : bytes -> option dirdef) (ok : dirdef -> dirloc -> bool) e :
  In e (flat_map (fun x => match look (d_name x) with None => [EUnknownDirective (d_name x)] | Some y => if ok y (d_loc x) then [] else [EMisplaced (d_name x) (d_loc x)] end) (applications d)) -> worded e.
Proof.
  intros H. apply in_flat_map in H. destruct H as (x & Hx & H). apply application_good in Hx. destruct Hx as (A & _ & P).
  destruct (look (d_name x)) as [y|]; [destruct (ok y (d_loc x)); [destruct H|]|]; (destruct H as [<-|H]; [|destruct H]); cbn [worded]; [split; [exact A|exact P]|exact A].
Qed.
Lemma allowed_dec : exists ok, forall x l, ok x l = true <-> allowed x l.
Proof. exists (fun x l => negb (N.eqb (N.land (dd_locs x) l) 0)). exact C22_ok_exists. Qed.

Lemma query_worded s e : In e (c_errors (validate d s)) -> worded e.
Proof.
  intros H. pose proof (C43_no_other_errors d s e H) as K. unfold query_kinds in K. repeat (apply orb_true_iff in K; destruct K as [K|K]).
  - pose proof (proj1 (reported_In is_nonexec _ e K) H) as R. rewrite C26_exact in R. apply in_map_iff in R. destruct R as (x & <- & R). apply filter_In in R. destruct R as [R N].
    apply def_good in R. cbn [worded]. destruct (def_body x); try discriminate N; cbn [defined_name].
    all: first [exact (IW _ (proj1 R))|exact (IW _ (proj1 (proj1 R)))|lit].
  - destruct e; try discriminate K. exact I.
  - pose proof (proj1 (reported_In is_unknown_type _ e K) H) as R.
    set (known := fun t => orb (match mget t (sc_types (given s)) with Some _ => true | None => false end) (inb t scalar_names)).
    rewrite (C21_exact d s known) in R.
    + apply in_map_iff in R. destruct R as (n & <- & R). apply filter_In in R. apply type_ref_good, R.
    + intros t. unfold known. rewrite orb_true_iff, inb_In. destruct (mget t _) eqn:E; split; intros [A|A]; eauto; try discriminate; destruct A; discriminate.
  - pose proof (proj1 (reported_In is_unused _ e K) H) as R. destruct (unused_decidable d) as (ub & Hub). rewrite (C19_any_document d s ub Hub) in R.
    apply in_flat_map in R. destruct R as ([i x] & Hi & R). apply in_combine_r in Hi. apply def_good in Hi. cbn [fst snd] in R. destruct (def_body x); try (destruct R; fail).
    apply in_map_iff in R. destruct R as (v & <- & R). apply filter_In in R. destruct R as [R _]. destruct Hi as (A & V & _). rewrite Forall_forall in V. cbn [worded]. split; [apply IW, (V v R)|apply (optional_word ident IW), A].
  - pose proof (proj1 (reported_In is_directive_err _ e K) H) as R. destruct allowed_dec as (ok & Hok). rewrite (C22_exact d s ok Hok) in R. exact (directive_worded _ ok e R).
  - pose proof (proj1 (reported_In is_dup_directive _ e K) H) as R. rewrite C23_exact in R. eapply dup_worded; [|apply site_good|exact R]. auto.
  - pose proof (proj1 (reported_In is_dup_arg _ e K) H) as R. rewrite C24_exact in R. eapply dup_worded; [|apply arg_site_good|exact R]. auto.
  - pose proof (proj1 (reported_In is_dup_input _ e K) H) as R. rewrite C25_exact in R. eapply dup_worded; [|apply object_site_good|exact R]. auto.
Qed.

Lemma directive_args_word s n x i : wordy s -> directive_of d s n = Some x -> In i (dd_args x) -> word (i_name i) /\ word (ty_string (i_type i)).
Proof.
  intros Ws H Hi. unfold directive_of in H. destruct (mget n (sc_dirs (given s))) as [y|] eqn:E; [injection H as ->; exact (Ws n x i E Hi)|].
  destruct (find _ (directive_definitions d)) as [y|] eqn:F.
  - injection H as ->. apply find_some in F. apply (directive_definition_good x); tauto.
  - unfold builtin_directive in H. cbn in H.
    repeat match type of H with (if ?c then _ else _) = _ => destruct c end; try discriminate H; injection H as <-; cbn in Hi;
      repeat (destruct Hi as [<-|Hi]; [split; lit|]); destruct Hi.
Qed.
Lemma with_before_In {X Y} (f : list X -> X -> list Y) l : forall b y, In y (with_before f b l) -> exists b' x, In y (f b' x).
Proof. induction l as [|x l IH]; intros b y H; [destruct H|]. cbn in H. apply in_app_iff in H. destruct H as [H|H]; [eauto|exact (IH _ _ H)]. Qed.
Lemma sdl_worded s e : wordy s -> In e (c_errors (validate_sdl d s)) -> worded e.
Proof.
  intros Ws H. pose proof (C43_sdl_no_other_errors d s e H) as K. unfold sdl_kinds in K. repeat (apply orb_true_iff in K; destruct K as [K|K]).
  - pose proof (proj1 (reported_In is_optype_err _ e K) H) as R. rewrite C31_exact in R. apply with_before_In in R. destruct R as (b & [[i ext] o] & R). unfold optype_error in R.
    destruct ext; [destruct (root_type _ o)|]; try (destruct (in_dec _ _ _); [|destruct R]); (destruct R as [<-|R]; [|destruct R]); cbn [worded]; exists o; reflexivity.
  - pose proof (proj1 (reported_In is_dup_directive _ e K) H) as R. rewrite (proj1 (C23_sdl_exact d s)) in R. eapply dup_worded; [|apply site_good|exact R]. auto.
  - pose proof (proj1 (reported_In is_dup_arg _ e K) H) as R. rewrite (proj1 (proj2 (C23_sdl_exact d s))) in R. eapply dup_worded; [|apply arg_site_good|exact R]. auto.
  - pose proof (proj1 (reported_In is_dup_input _ e K) H) as R. rewrite (proj2 (proj2 (C23_sdl_exact d s))) in R. eapply dup_worded; [|apply object_site_good|exact R]. auto.
  - destruct e; try discriminate K. destruct (C27_only_defined_directives d s a d0 H) as (def & x & _ & Hx & <- & Ha). apply application_good in Hx. destruct Hx as (A & B & _).
    apply in_map_iff in Ha. destruct Ha as (y & <- & Hy). split; [apply B, Hy|exact A].
  - pose proof (proj1 (reported_In is_directive_err _ e K) H) as R. destruct allowed_dec as (ok & Hok). rewrite (C22_sdl_exact d s ok Hok) in R. exact (directive_worded _ ok e R).
  - pose proof (proj1 (reported_In is_unknown_type _ e K) H) as R.
    set (known := fun t => orb (match type_of d s t with Some _ => true | None => false end) (inb t scalar_names)).
    rewrite (C21_sdl_exact d s known) in R.
    + apply in_map_iff in R. destruct R as (n & <- & R). apply filter_In in R. apply type_ref_good, R.
    + intros t. unfold known. rewrite orb_true_iff, inb_In. destruct (type_of d s t) eqn:E; split; intros [A|A]; eauto; try discriminate; destruct A; discriminate.
  - destruct e; try discriminate K. apply C29_reported_names in H. apply defined_good, H.
  - pose proof (proj1 (reported_In is_ext_err _ e K) H) as R. rewrite C30_exact in R. apply in_flat_map in R. destruct R as (x & Hx & R). apply type_extension_good in Hx. unfold extension_error in R.
    destruct (type_of d s (t_name x)) as [def|]; [|destruct R as [<-|[]]; exact Hx].
    destruct (t_kind x), (t_kind def) eqn:E; try (destruct R; fail); (destruct R as [<-|R]; [|destruct R]); cbn [worded]; (split; [exact Hx|]); eexists; reflexivity.
  - pose proof (proj1 (reported_In is_missing_arg _ e K) H) as R. rewrite C28_exact in R. apply in_flat_map in R. destruct R as (x & Hx & R). apply application_good in Hx.
    destruct (directive_of d s (d_name x)) as [def|] eqn:E; [|destruct R]. apply in_map_iff in R. destruct R as (i & <- & R). apply filter_In in R. cbn [worded].
    destruct (directive_args_word s _ def i Ws E (proj1 R)). tauto.
  - pose proof (proj1 (reported_In is_dup_type _ e K) H) as R. rewrite (proj2 (C32_types d s)) in R. apply in_map_iff in R. destruct R as (n & <- & R). apply later_In in R. apply filter_In in R.
    destruct R as [R _]. apply in_map_iff in R. destruct R as (t & <- & R). apply type_definition_good, R.
  - pose proof (proj1 (reported_In is_existed_type _ e K) H) as R. rewrite (proj1 (C32_types d s)) in R. apply in_map_iff in R. destruct R as (n & <- & R). apply filter_In in R.
    destruct R as [R _]. apply in_map_iff in R. destruct R as (t & <- & R). apply type_definition_good, R.
  - pose proof (proj1 (reported_In is_dup_dir _ e K) H) as R. rewrite (proj2 (C32_directives d s)) in R. apply in_map_iff in R. destruct R as (n & <- & R). apply later_In in R. apply filter_In in R.
    destruct R as [R _]. apply in_map_iff in R. destruct R as (t & <- & R). apply directive_definition_good, R.
  - pose proof (proj1 (reported_In is_existed_dir _ e K) H) as R. rewrite (proj1 (C32_directives d s)) in R. apply in_map_iff in R. destruct R as (n & <- & R). apply filter_In in R.
    destruct R as [R _]. apply in_map_iff in R. destruct R as (t & <- & R). apply directive_definition_good, R.
  - destruct e; try discriminate K; exact I.
Qed.
End Errors.
