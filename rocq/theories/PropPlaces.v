(** * PropPlaces: C58 — a directive is reported as misplaced exactly where its definition does not list the place.

    C22 speaks of the bits the implementation compares; here places are the names of the language (FIELD, SCALAR, ...), on
    both sides: where a directive stands in the document, and which names its definition lists. *)
From Verif Require Import Base Lexer LexSpec AST Parser Grammar GrammarProps ParserSound PropParse Walker WalkSpec Context Rules CtxProofs RuleProofs RuleSpec QueryProofs SdlProofs PropRules PropSdl WellFormed PropWell GoodNodes Messages MessageProofs PropMessages Samples.
Import AST.

(** ** The specification *)
(** The places of a node where directives can stand, by the names of the language, with the directives that stand there. *)
Definition operation_place (k : opkind) : string := match k with Query => "QUERY" | Mutation => "MUTATION" | Subscription => "SUBSCRIPTION" end.
Definition type_place (k : tkindT) : string :=
  match k with KScalar => "SCALAR" | KObject => "OBJECT" | KInterface => "INTERFACE" | KUnion => "UNION" | KEnum => "ENUM" | KInputObject => "INPUT_OBJECT" end.
Definition places (n : node) : list (string * list directive) :=
  match n with
  | NOperation o => [(operation_place (o_kind o), o_dirs o)]
  | NFragment f => [("FRAGMENT_DEFINITION"%string, f_dirs f)]
  | NSelection (SField _ _ _ ds _) => [("FIELD"%string, ds)]
  | NSelection (SSpread _ ds) => [("FRAGMENT_SPREAD"%string, ds)]
  | NSelection (SInline _ ds _) => [("INLINE_FRAGMENT"%string, ds)]
  | NSchemaDefinition s | NSchemaExtension s => [("SCHEMA"%string, s_dirs s)]
  | NTypeDefinition t | NTypeExtension t =>
      (type_place (t_kind t), t_dirs t) :: map (fun i => ("INPUT_FIELD_DEFINITION"%string, i_dirs i)) (t_inputs t)
  | NFieldDefinition f => ("FIELD_DEFINITION"%string, fd_dirs f) :: map (fun i => ("ARGUMENT_DEFINITION"%string, i_dirs i)) (fd_args f)
  | NDirectiveDefinition d => map (fun i => ("ARGUMENT_DEFINITION"%string, i_dirs i)) (dd_args d)
  | NEnumValueDefinition e => [("ENUM_VALUE"%string, ev_dirs e)]
  | _ => []
  end.
(** The directive [x] stands at the place [p] of the document. *)
Definition stands (doc : document) (x : directive) (p : string) : Prop :=
  exists n ds, below (NDocument doc) n /\ In (p, ds) (places n) /\ In x ds.
(** The definition lists the place. *)
Definition lists (def : dirdef) (p : string) : Prop := exists i, nth_error location_names i = Some (B p) /\ N.testbit (dd_locs def) (N.of_nat i) = true.

(** ** Every directive stands somewhere, at the place it records *)
Lemma all_names p : In p location_names -> exists s, p = B s.
Proof. intros H. unfold location_names in H. apply in_map_iff in H. destruct H as (s & <- & _). eauto. Qed.
Section Doc.
Variable ident float : bytes -> Prop.
Variable doc : document.
Hypothesis W : wf_document ident float doc.
Lemma below_good n : below (NDocument doc) n -> good ident float n.
Proof. intros H. apply (good_below _ _ _ _ H). apply W. Qed.
Lemma dirs_loc l p x : wf_directives ident float l p -> In x p -> d_loc x = l.
Proof. unfold wf_directives. rewrite Forall_forall. intros H Hx. apply (H x Hx). Qed.
Lemma inputs_loc l is i x : Forall (wf_input ident float l) is -> In i is -> In x (i_dirs i) -> d_loc x = l.
Proof. rewrite Forall_forall. intros H Hi Hx. destruct (H i Hi) as (_ & _ & _ & D). eapply dirs_loc; eassumption. Qed.
Lemma stands_loc x p : stands doc x p -> d_loc x = location_by_name (B p) /\ In (B p) location_names.
Proof.
  intros (n & ds & Hb & Hp & Hx). apply below_good in Hb. destruct n; try (destruct Hp; fail); cbn [good] in Hb.
  - destruct Hp as [E|[]]. injection E as <- <-. destruct Hb as (_ & _ & D & _). rewrite (dirs_loc _ _ _ D Hx). destruct (o_kind o); (split; [reflexivity|vm_compute; tauto]).
  - destruct Hp as [E|[]]. injection E as <- <-. destruct Hb as (_ & _ & D & _). rewrite (dirs_loc _ _ _ D Hx). (split; [reflexivity|vm_compute; tauto]).
  - inversion Hb; subst; destruct Hp as [E|[]]; injection E as <- <-; match goal with D : wf_directives _ _ _ _ |- _ => rewrite (dirs_loc _ _ _ D Hx) end; (split; [reflexivity|vm_compute; tauto]).
  - apply in_map_iff in Hp. destruct Hp as (i & E & Hi). injection E as <- <-. destruct Hb as (_ & D & _). rewrite (inputs_loc _ _ _ _ D Hi Hx). (split; [reflexivity|vm_compute; tauto]).
  - destruct Hp as [E|[]]. injection E as <- <-. destruct Hb as (D & _). rewrite (dirs_loc _ _ _ D Hx). (split; [reflexivity|vm_compute; tauto]).
  - destruct Hp as [E|[]]. injection E as <- <-. destruct Hb as (D & _). rewrite (dirs_loc _ _ _ D Hx). (split; [reflexivity|vm_compute; tauto]).
  - destruct Hb as (_ & D & _ & _ & _ & _ & D' & _). destruct Hp as [E|Hp].
    + injection E as <- <-. rewrite (dirs_loc _ _ _ D Hx). destruct (t_kind t); (split; [reflexivity|vm_compute; tauto]).
    + apply in_map_iff in Hp. destruct Hp as (i & E & Hi). injection E as <- <-. rewrite (inputs_loc _ _ _ _ D' Hi Hx). (split; [reflexivity|vm_compute; tauto]).
  - destruct Hb as (_ & D & _ & _ & _ & _ & D' & _). destruct Hp as [E|Hp].
    + injection E as <- <-. rewrite (dirs_loc _ _ _ D Hx). destruct (t_kind t); (split; [reflexivity|vm_compute; tauto]).
    + apply in_map_iff in Hp. destruct Hp as (i & E & Hi). injection E as <- <-. rewrite (inputs_loc _ _ _ _ D' Hi Hx). (split; [reflexivity|vm_compute; tauto]).
  - destruct Hb as (_ & D' & _ & D). destruct Hp as [E|Hp].
    + injection E as <- <-. rewrite (dirs_loc _ _ _ D Hx). (split; [reflexivity|vm_compute; tauto]).
    + apply in_map_iff in Hp. destruct Hp as (i & E & Hi). injection E as <- <-. rewrite (inputs_loc _ _ _ _ D' Hi Hx). (split; [reflexivity|vm_compute; tauto]).
  - destruct Hp as [E|[]]. injection E as <- <-. destruct Hb as (_ & D). rewrite (dirs_loc _ _ _ D Hx). (split; [reflexivity|vm_compute; tauto]).
Qed.
End Doc.
(** Which directives a node has below it by way of a list of directives: only those of its places, or of its parent. *)
Lemma below_snoc n m k : below n m -> In k (kids m) -> below n k.
Proof. induction 1 as [|p n m H _ IH]; intros K; [econstructor; [exact K|constructor]|]. econstructor; [exact H|apply IH, K]. Qed.
Lemma below_last n m : below n m -> m = n \/ exists k, below n k /\ In m (kids k).
Proof.
  induction 1 as [|p n m H Hb IH]; [left; reflexivity|]. right. destruct IH as [->|(k & Hk & Hm)].
  - exists p. split; [constructor|exact H].
  - exists k. split; [econstructor; eassumption|exact Hm].
Qed.
Ltac up H n Hn := apply below_last in H; destruct H as [H|(n & Hn & H)]; [discriminate H|].
(** the parent of a node, by cases on the kind of the parent *)
Lemma nonnil_inj {X} (f : list X -> node) l n : In n (nonnil f l) -> n = f l /\ l <> [].
Proof. destruct l; cbn; [intros []|intros [<-|[]]; split; [reflexivity|discriminate]]. Qed.
Ltac who H := repeat match goal with
  | H : In _ (_ ++ _) |- _ => apply in_app_iff in H; destruct H as [H|H]
  | H : In _ (map _ _) |- _ => apply in_map_iff in H; destruct H as (? & H & ?); try discriminate H
  | H : In _ (nonnil _ _) |- _ => apply nonnil_inj in H; destruct H as [H _]; try discriminate H
  | H : In _ (some _ _) |- _ => apply in_some' in H; destruct H as (? & _ & H); try discriminate H
  | H : In _ [] |- _ => destruct H
  | H : In _ (_ :: _) |- _ => destruct H as [H|H]; try discriminate H
  end.
Ltac split_kids k H := destruct k; cbn [kids] in H; repeat match type of H with context [match ?x with _ => _ end] => destruct x eqn:? end; who H.
Lemma directive_parent doc x : below (NDocument doc) (NDirective x) -> exists l, below (NDocument doc) (NDirectives l) /\ In x l.
Proof. intros H. up H m Hm. split_kids m H. injection H as <-. eexists. split; [exact Hm|assumption]. Qed.
Lemma kind_parent doc k t : below (NDocument doc) (NTypeDefinitionKind k t) -> below (NDocument doc) (NTypeDefinition t).
Proof. intros H. up H m Hm. split_kids m H. injection H as _ <-. exact Hm. Qed.
Lemma xkind_parent doc k t : below (NDocument doc) (NTypeExtensionKind k t) -> below (NDocument doc) (NTypeExtension t).
Proof. intros H. up H m Hm. split_kids m H. injection H as _ <-. exact Hm. Qed.
Lemma op_parent doc k o : below (NDocument doc) (NOperationKind k o) -> below (NDocument doc) (NOperation o).
Proof. intros H. up H m Hm. split_kids m H. injection H as _ <-. exact Hm. Qed.
Lemma sel_parent doc n s : (n = NFieldSelection s \/ n = NFragmentSpread s \/ n = NInlineFragment s) -> below (NDocument doc) n -> below (NDocument doc) (NSelection s).
Proof. intros E H. apply below_last in H. destruct H as [H|(m & Hm & H)]; [subst; intuition discriminate|]. split_kids m H; subst; destruct E as [E|[E|E]]; try discriminate E; injection E as <-; exact Hm. Qed.
Lemma stands_intro doc x p n ds : below (NDocument doc) n -> In (p, ds) (places n) -> In x ds -> stands doc x p.
Proof. intros. exists n, ds. auto. Qed.
Lemma inputs_parent doc l : below (NDocument doc) (NInputValueDefinitions l) -> forall i, In i l -> exists p n, below (NDocument doc) n /\ In (p, i_dirs i) (places n).
Proof.
  intros H i Hi. up H m Hm. split_kids m H; injection H as ->.
  - exists "ARGUMENT_DEFINITION"%string, (NDirectiveDefinition d). split; [exact Hm|]. cbn [places]. apply in_map_iff. exists i. auto.
  - exists "INPUT_FIELD_DEFINITION"%string, (NTypeDefinition t). split; [eapply kind_parent; eassumption|]. cbn [places]. right. apply in_map_iff. exists i. auto.
  - exists "INPUT_FIELD_DEFINITION"%string, (NTypeExtension t). split; [eapply xkind_parent; eassumption|]. cbn [places]. right. apply in_map_iff. exists i. auto.
  - exists "ARGUMENT_DEFINITION"%string, (NFieldDefinition f). split; [exact Hm|]. cbn [places]. right. apply in_map_iff. exists i. auto.
Qed.
Lemma directives_stand doc l x : below (NDocument doc) (NDirectives l) -> In x l -> exists p, stands doc x p.
Proof.
  intros H Hx. up H m Hm. split_kids m H; injection H as ->.
  1: apply op_parent in Hm.
  all: try match goal with Hm : below _ (NFieldSelection ?s) |- _ => apply (sel_parent doc _ s (or_introl eq_refl)) in Hm
      | Hm : below _ (NFragmentSpread ?s) |- _ => apply (sel_parent doc _ s (or_intror (or_introl eq_refl))) in Hm
      | Hm : below _ (NInlineFragment ?s) |- _ => apply (sel_parent doc _ s (or_intror (or_intror eq_refl))) in Hm
      | Hm : below _ (NTypeDefinitionKind _ _) |- _ => apply kind_parent in Hm
      | Hm : below _ (NTypeExtensionKind _ _) |- _ => apply xkind_parent in Hm end.
  all: try (eexists; eapply stands_intro; [exact Hm|left; reflexivity|exact Hx]; fail).
  up Hm m Hm'. split_kids m Hm. injection Hm as ->. destruct (inputs_parent doc _ Hm' i ltac:(assumption)) as (p & n & Hn & Hp). exists p. eapply stands_intro; eassumption.
Qed.
Lemma in_nonnil' {X} (f : list X -> node) l x : In x l -> In (f l) (nonnil f l).
Proof. destruct l; [intros []|intros _; left; reflexivity]. Qed.
Lemma places_below doc n p ds x : below (NDocument doc) n -> In (p, ds) (places n) -> In x ds -> below (NDocument doc) (NDirectives ds).
Proof.
  intros Hn Hp Hx. pose proof (in_nonnil' NDirectives ds x Hx) as D. destruct n; try (destruct Hp; fail).
  - destruct Hp as [E|[]]. injection E as <- <-. apply (below_snoc _ (NOperationKind (o_kind o) o)); [apply (below_snoc _ _ _ Hn); left; reflexivity|]. cbn [kids]. rewrite !in_app_iff. auto.
  - destruct Hp as [E|[]]. injection E as <- <-. apply (below_snoc _ _ _ Hn). cbn [kids]. rewrite !in_app_iff. auto.
  - destruct s; (destruct Hp as [E|[]]); injection E as <- <-; (eapply below_snoc; [apply (below_snoc _ _ _ Hn); left; reflexivity|]); cbn [kids]; rewrite ?in_app_iff; auto.
  - apply in_map_iff in Hp. destruct Hp as (i & E & Hi). injection E as <- <-.
    apply (below_snoc _ (NInputValueDefinition i)); [apply (below_snoc _ (NInputValueDefinitions (dd_args d)))|]; cbn [kids]; rewrite ?in_app_iff; auto; [|apply in_map, Hi].
    apply (below_snoc _ _ _ Hn). apply in_nonnil' with i. exact Hi.
  - destruct Hp as [E|[]]. injection E as <- <-. apply (below_snoc _ _ _ Hn). cbn [kids]. rewrite !in_app_iff. auto.
  - destruct Hp as [E|[]]. injection E as <- <-. apply (below_snoc _ _ _ Hn). cbn [kids]. rewrite !in_app_iff. auto.
  - assert (Hk : below (NDocument doc) (NTypeDefinitionKind (t_kind t) t)) by (apply (below_snoc _ _ _ Hn); left; reflexivity). destruct Hp as [E|Hp].
    + injection E as <- <-. apply (below_snoc _ _ _ Hk). cbn [kids]. rewrite !in_app_iff. auto.
    + apply in_map_iff in Hp. destruct Hp as (i & E & Hi). injection E as <- <-.
      apply (below_snoc _ (NInputValueDefinition i)); [apply (below_snoc _ (NInputValueDefinitions (t_inputs t)))|]; cbn [kids]; rewrite ?in_app_iff; auto; [|apply in_map, Hi].
      apply (below_snoc _ _ _ Hk). cbn [kids]. rewrite !in_app_iff. do 5 right. apply in_nonnil' with i. exact Hi.
  - assert (Hk : below (NDocument doc) (NTypeExtensionKind (t_kind t) t)) by (apply (below_snoc _ _ _ Hn); left; reflexivity). destruct Hp as [E|Hp].
    + injection E as <- <-. apply (below_snoc _ _ _ Hk). cbn [kids]. rewrite !in_app_iff. auto.
    + apply in_map_iff in Hp. destruct Hp as (i & E & Hi). injection E as <- <-.
      apply (below_snoc _ (NInputValueDefinition i)); [apply (below_snoc _ (NInputValueDefinitions (t_inputs t)))|]; cbn [kids]; rewrite ?in_app_iff; auto; [|apply in_map, Hi].
      apply (below_snoc _ _ _ Hk). cbn [kids]. rewrite !in_app_iff. do 5 right. apply in_nonnil' with i. exact Hi.
  - destruct Hp as [E|Hp].
    + injection E as <- <-. apply (below_snoc _ _ _ Hn). cbn [kids]. rewrite !in_app_iff. auto.
    + apply in_map_iff in Hp. destruct Hp as (i & E & Hi). injection E as <- <-.
      apply (below_snoc _ (NInputValueDefinition i)); [apply (below_snoc _ (NInputValueDefinitions (fd_args f)))|]; cbn [kids]; rewrite ?in_app_iff; auto; [|apply in_map, Hi].
      apply (below_snoc _ _ _ Hn). cbn [kids]. rewrite !in_app_iff. left. apply in_nonnil' with i. exact Hi.
  - destruct Hp as [E|[]]. injection E as <- <-. apply (below_snoc _ _ _ Hn). cbn [kids]. auto.
Qed.
Lemma application_stands doc x : In x (applications doc) <-> exists p, stands doc x p.
Proof.
  unfold applications. rewrite in_flat_map. split.
  - intros (n & Hn & H). apply nodes_below in Hn. destruct n; try (destruct H; fail). destruct H as [<-|[]]. apply directive_parent in Hn. destruct Hn as (l & Hl & Hx). eapply directives_stand; eassumption.
  - intros (p & n & ds & Hn & Hp & Hx). exists (NDirective x). split; [|left; reflexivity]. apply nodes_below.
    eapply below_snoc; [exact (places_below doc n p ds x Hn Hp Hx)|]. cbn [kids]. apply in_map, Hx.
Qed.

(** ** C58 *)
Lemma lists_allowed def p : In (B p) location_names -> (allowed def (location_by_name (B p)) <-> lists def p).
Proof.
  intros H. unfold allowed, lists. split.
  - intros (b & H1 & H2). exists (N.to_nat b). rewrite <- (Nnat.N2Nat.id b) in H2. rewrite (location_bit (B p) (N.to_nat b) H) in H2. rewrite Nnat.N2Nat.id. auto.
  - intros (i & E & H1). exists (N.of_nat i). split; [exact H1|]. apply location_bit; assumption.
Qed.
(** [look n]: the definition of the directive [n]. *)
Definition misplaced (doc : document) (look : bytes -> option dirdef) (n : bytes) (p : string) : Prop :=
  exists x def, stands doc x p /\ d_name x = n /\ look n = Some def /\ ~ lists def p.
Lemma misplaced_errors ident float doc (look : bytes -> option dirdef) (ok : dirdef -> dirloc -> bool) n l : wf_document ident float doc -> (forall x l, ok x l = true <-> allowed x l) ->
  In (EMisplaced n l) (flat_map (fun x => match look (d_name x) with None => [EUnknownDirective (d_name x)] | Some y => if ok y (d_loc x) then [] else [EMisplaced (d_name x) (d_loc x)] end) (applications doc)) <->
  exists p, l = location_by_name (B p) /\ misplaced doc look n p.
Proof.
  intros W Hok. rewrite in_flat_map. split.
  - intros (x & Hx & H). apply application_stands in Hx. destruct Hx as (p & Hs). destruct (stands_loc ident float doc W x p Hs) as [E Hp]. exists p.
    destruct (look (d_name x)) as [y|] eqn:L; [|destruct H as [H|[]]; discriminate H]. specialize (Hok y (d_loc x)). destruct (ok y (d_loc x)); [destruct H|].
    destruct H as [H|[]]. injection H as <- <-. split; [exact E|]. exists x, y. split; [exact Hs|]. split; [reflexivity|]. split; [exact L|]. intros C.
    apply (lists_allowed y p Hp) in C. rewrite <- E in C. apply Hok in C. discriminate.
  - intros (p & -> & x & y & Hs & <- & L & N). exists x. split; [apply application_stands; eauto|]. destruct (stands_loc ident float doc W x p Hs) as [E Hp]. rewrite L, E.
    specialize (Hok y (location_by_name (B p))). destruct (ok y _); [|left; reflexivity]. exfalso. apply N. apply (lists_allowed y p Hp), Hok. reflexivity.
Qed.
(** The error names the place; the message spells its name. *)
Theorem C58_misplaced_iff fok i d s n l : parse fok i = Doc d ->
  (In (EMisplaced n l) (c_errors (validate d s)) <-> exists p, l = location_by_name (B p) /\ misplaced d (directive_for (given s)) n p) /\
  (In (EMisplaced n l) (c_errors (validate_sdl d s)) <-> exists p, l = location_by_name (B p) /\ misplaced d (directive_of d s) n p).
Proof.
  intros Hp. pose proof (C55_any_input fok i d Hp) as W. destruct allowed_dec as (ok & Hok). split.
  - rewrite (reported_In is_directive_err) by reflexivity. rewrite (C22_exact d s ok Hok). apply (misplaced_errors _ _ d _ ok n l W Hok).
  - rewrite (reported_In is_directive_err) by reflexivity. rewrite (C22_sdl_exact d s ok Hok). apply (misplaced_errors _ _ d _ ok n l W Hok).
Qed.
Print Assumptions C58_misplaced_iff.
Lemma name_of_place p : In (B p) location_names -> location_name (location_by_name (B p)) = B p.
Proof. generalize (B p) as x. clear. intros p H. unfold location_names in H. repeat (destruct H as [<-|H]; [vm_compute; reflexivity|]). destruct H. Qed.
(** As the caller sees it. *)
Theorem C58_message_iff fok i d s n p : parse fok i = Doc d -> word n -> In (B p) location_names ->
  let m := B "Directive """ ++ n ++ B """ may not be used on " ++ B p ++ B "." in
  (In m (map message (c_errors (validate d s))) <-> misplaced d (directive_for (given s)) n p) /\
  (wordy s -> In m (map message (c_errors (validate_sdl d s))) <-> misplaced d (directive_of d s) n p).
Proof.
  intros Hp Hn Hl m. assert (E : m = message (EMisplaced n (location_by_name (B p)))).
  { cbn [message]. rewrite (name_of_place p Hl). unfold m, q. change (B "Directive """) with (B "Directive " ++ B """"). change (B """ may not be used on ") with (B """" ++ B " may not be used on ").
    rewrite <- !app_assoc. reflexivity. }
  assert (We : worded (EMisplaced n (location_by_name (B p)))) by (split; [exact Hn|exists (B p); auto]).
  destruct (C57_reported_messages fok i d s _ Hp We) as [H1 H2]. destruct (C58_misplaced_iff fok i d s n (location_by_name (B p)) Hp) as [K1 K2].
  assert (U : forall look, (exists p', location_by_name (B p) = location_by_name (B p') /\ misplaced d look n p') <-> misplaced d look n p).
  { intros look. split; [|eauto]. intros (p' & El & x & def & Hs & Hx & L & N). destruct (stands_loc _ _ d (C55_any_input fok i d Hp) x p' Hs) as [_ Hp'].
    assert (B p = B p') as Eb by (rewrite <- (name_of_place p Hl), <- (name_of_place p' Hp'), El; reflexivity).
    assert (p = p') as -> by (apply (f_equal string_of_list_ascii) in Eb; unfold B in Eb; rewrite !string_of_list_ascii_of_string in Eb; exact Eb).
    exists x, def. auto. }
  rewrite U in K1, K2. rewrite E. split; [rewrite H1; exact K1|]. intros Ws. rewrite (H2 Ws). exact K2.
Qed.
Print Assumptions C58_message_iff.

(** ** What a definition lists *)
(** The names, separated by "|", as they stand in the source. *)
Fixpoint barred (ns : list bytes) : list bytes := match ns with [] => [] | [n] => [n] | n :: ns => n :: B "|" :: barred ns end.
Lemma sep_tokens lv ts ns r : sep1 "|" (g_dirloc lv) ts ns r -> exists toks, ts = toks ++ r /\ map tlit toks = barred ns /\ ns <> [] /\ Forall (fun n => In n location_names) ns.
Proof.
  induction 1 as [ts a r H|ts a r1 r2 l r H H1 H2 (toks & -> & E & N & F)].
  - inversion H as [? ? ? T]; subst. inversion T; subst. exists [mkTok KName a l c]. repeat split; auto. discriminate.
  - inversion H as [? ? ? T]; subst. inversion T; subst. inversion H1; subst. eexists (mkTok KName a _ _ :: mkTok KPunct (B "|") _ _ :: toks). split; [reflexivity|]. split; [|split; [discriminate|constructor; assumption]].
    cbn [map tlit]. rewrite E. destruct l; [contradiction|reflexivity].
Qed.
Lemma denote_lists ns def : locations_denote ns (dd_locs def) -> Forall (fun n => In n location_names) ns -> forall p, lists def p <-> In (B p) ns.
Proof.
  intros D F p. unfold lists. split.
  - intros (k & K1 & K2). apply D in K2. destruct K2 as (m & M1 & M2). assert (B p = m) as -> by congruence. exact M1.
  - intros H. rewrite Forall_forall in F. destruct (In_nth_error _ _ (F _ H)) as (k & K). exists k. split; [exact K|]. apply D. eauto.
Qed.
Theorem C58_definition_lists fok i d ts def : parse fok i = Doc d -> tokens i ts -> In def (directive_definitions d) ->
  exists pre toks post ns, ts = pre ++ toks ++ post /\ map tlit toks = barred ns /\ ns <> [] /\
    (exists pre' on, (pre = pre' ++ [on] \/ exists bar, pre = pre' ++ [on; bar] /\ tlit bar = B "|") /\ tlit on = B "on") /\
    forall p, lists def p <-> In (B p) ns.
Proof.
  intros Hp Ht Hd. destruct (C13_sound fok i d Hp) as (ts' & Ht' & (e & _ & Hg) & _). rewrite (tokens_fun _ _ _ Ht' Ht) in Hg. clear Ht Ht' Hp ts'.
  unfold directive_definitions in Hd. apply in_flat_map in Hd. destruct Hd as (x & Hx & Hd). destruct (def_body x) eqn:Eb; try (destruct Hd; fail). destruct Hd as [<-|[]].
  assert (G : exists ts1 r, suffix ts1 ts /\ g_def fok Any ts1 x r).
  { clear Eb. revert Hx. induction Hg as [ts dd r H|ts dd r1 l r H _ H2 IH]; intros Hx.
    - destruct Hx as [<-|[]]. exists ts, r. split; [apply suffix_refl|exact H].
    - destruct Hx as [<-|Hx]; [exists ts, r1; split; [apply suffix_refl|exact H]|]. destruct (IH Hx) as (ts1 & r' & S & G). exists ts1, r'. split; [|exact G]. eapply suffix_trans; [exact S|eapply g_def_suffix; eassumption]. }
  destruct G as (ts1 & r & (a & ->) & G). inversion G as [t ts0 b r0 Gb]; subst. cbn [def_body] in Eb. subst b. inversion Gb as [| | | | |? dsc ? ? ? Hdesc Hdd| |]; subst.
  apply g_desc_suffix in Hdesc. destruct Hdesc as (p1 & E1). inversion Hdd; subst.
  repeat match goal with H : terminal _ _ _ _ |- _ => inversion H; subst; clear H end.
  match goal with H : maybe _ _ _ |- _ => destruct H as [E5|E5]; [|inversion E5; subst; clear E5] end.
  all: match goal with H : g_argdefs _ _ _ _ _ |- _ => apply g_argdefs_suffix in H; destruct H as (p2 & E2) end.
  all: match goal with H : sep1 _ _ _ _ _ |- _ => apply sep_tokens in H; destruct H as (toks & E3 & E4 & Nn & F) end.
  all: match goal with H : locations_denote ?ns ?lo |- _ => pose proof (denote_lists ns (mkDd dsc n args lo) H F) as L end.
  - match type of E2 with _ = _ ++ ?on :: _ => exists ((a ++ p1 ++ [mkTok KName (B "directive") l3 c2; mkTok KPunct (B "@") l2 c1; mkTok KName n l1 c0] ++ p2) ++ [on]), toks, r, ns; (split; [|split; [exact E4|split; [exact Nn|split; [|exact L]]]]); [|eexists _, on; split; [left; reflexivity|reflexivity]] end.
    rewrite E1, E2, E5, E3. rewrite <- !app_assoc. reflexivity.
  - match type of E2 with _ = _ ++ ?on :: ?bar :: _ => exists ((a ++ p1 ++ [mkTok KName (B "directive") l3 c2; mkTok KPunct (B "@") l2 c1; mkTok KName n l1 c0] ++ p2) ++ [on; bar]), toks, r, ns; (split; [|split; [exact E4|split; [exact Nn|split; [|exact L]]]]); [|eexists _, on; split; [right; exists bar; split; reflexivity|reflexivity]] end.
    rewrite E1, E2, E3. rewrite <- !app_assoc. reflexivity.
Qed.
Print Assumptions C58_definition_lists.
(** The built-in ones. *)
Theorem C58_builtin p :
  (lists skip_directive p <-> In p ["FIELD"; "FRAGMENT_SPREAD"; "INLINE_FRAGMENT"]%string) /\
  (lists include_directive p <-> In p ["FIELD"; "FRAGMENT_SPREAD"; "INLINE_FRAGMENT"]%string) /\
  (lists deprecated_directive p <-> In p ["FIELD_DEFINITION"; "ENUM_VALUE"]%string).
Proof.
  assert (G : forall ns def, locations_denote (map B ns) (dd_locs def) -> Forall (fun n => In n location_names) (map B ns) -> lists def p <-> In p ns).
  { intros ns def D F. rewrite (denote_lists _ def D F). rewrite in_map_iff. split; [|intros H; exists p; auto]. intros (x & E & H).
    apply (f_equal string_of_list_ascii) in E. unfold B in E. rewrite !string_of_list_ascii_of_string in E. congruence. }
  assert (H1 : Forall (fun n => In n location_names) (map B ["FIELD"; "FRAGMENT_SPREAD"; "INLINE_FRAGMENT"]%string)) by (repeat constructor; vm_compute; tauto).
  assert (H2 : Forall (fun n => In n location_names) (map B ["FIELD_DEFINITION"; "ENUM_VALUE"]%string)) by (repeat constructor; vm_compute; tauto).
  pose proof (locations_fold _ H1) as D1. pose proof (locations_fold _ H2) as D2. split; [|split]; (apply G; [|assumption]); [exact D1|exact D1|exact D2].
Qed.
Print Assumptions C58_builtin.
(** A document with misplaced and well placed directives: the built-in "deprecated" on a scalar and on a field definition, a defined
    one on an enum value and on a query. *)
Definition placing : document := src "directive @d on QUERY | ENUM_VALUE scalar S @deprecated type T {f: S @deprecated g(a: S @d): S} enum E {V @d} query @d {a @d}".
Example C58_nonvacuous : texts (validate_sdl placing None) =
  map B ["Directive ""d"" may not be used on FIELD."; "Directive ""d"" may not be used on ARGUMENT_DEFINITION."; "Directive ""deprecated"" may not be used on SCALAR."]%string.
Proof. vm_compute. reflexivity. Qed.
Lemma misplaced_scalar fok i d (P : parse fok i = Doc d) (H : In (EMisplaced (B "deprecated") LScalar) (c_errors (validate_sdl d None))) :
  misplaced d (directive_of d None) (B "deprecated") "SCALAR".
Proof.
  apply (proj2 (C58_misplaced_iff _ _ _ None (B "deprecated") LScalar P)) in H. destruct H as (p & E & M).
  assert (p = "SCALAR"%string) as ->; [|exact M].
  destruct M as (x & def & Hs & _). destruct (stands_loc _ _ d (C55_any_input _ _ _ P) x p Hs) as [_ Hp]. pose proof (name_of_place p Hp) as Np. rewrite <- E in Np.
  change (location_name LScalar) with (B "SCALAR") in Np. apply (f_equal string_of_list_ascii) in Np. unfold B in Np. rewrite !string_of_list_ascii_of_string in Np. congruence.
Qed.
Example C58_nonvacuous_stands : stands placing (mkDir (B "deprecated") [] LScalar) "SCALAR" /\ misplaced placing (directive_of placing None) (B "deprecated") "SCALAR" /\
  parse (fun _ => true) (B "directive @d on QUERY | ENUM_VALUE scalar S @deprecated type T {f: S @deprecated g(a: S @d): S} enum E {V @d} query @d {a @d}") = Doc placing.
Proof.
  assert (P : parse (fun _ => true) (B "directive @d on QUERY | ENUM_VALUE scalar S @deprecated type T {f: S @deprecated g(a: S @d): S} enum E {V @d} query @d {a @d}") = Doc placing) by (vm_compute; reflexivity).
  assert (In (EMisplaced (B "deprecated") LScalar) (c_errors (validate_sdl placing None))) as H by (vm_compute; tauto).
  pose proof (misplaced_scalar _ _ _ P H) as M.
  split; [|split; [exact M|exact P]]. exists (NTypeDefinition (mkTd KScalar [] (B "S") [] [mkDir (B "deprecated") [] LScalar] [] [] [] [])), [mkDir (B "deprecated") [] LScalar].
  split; [apply nodes_below; vm_compute; tauto|]. split; left; reflexivity.
Qed.
