(** * PropDump: theorems C15 and C16 (the dumper). *)
From Verif Require Import Base Utf8 Utf8Proofs Lexer LexSpec PropLex AST Parser Grammar GrammarProps PropParse.
From Verif Require Import Dumper DumpSpec DumpProofs DumpMain DumpTotal.

(** ** C15.  Dumping a parsed document that meets the conditions of DumpSpec.v gives a text that parses to the same
    document: the same definitions in the same order and the same counters (positions may differ). *)
Theorem C15_roundtrip : forall fg fok cs d, clean cs -> parse fok (utf8s cs) = Doc d -> dumpable fg d ->
  exists text d', sdump fg d = Some text /\ parse fok text = Doc d' /\ same_outcome (Doc d') (Doc d).
Proof. exact roundtrip. Qed.
Print Assumptions C15_roundtrip.

(** Dumping again gives the same text. *)
Theorem C15_idempotent : forall fg fok cs d text, clean cs -> parse fok (utf8s cs) = Doc d -> dumpable fg d -> sdump fg d = Some text ->
  exists d', parse fok text = Doc d' /\ sdump fg d' = Some text.
Proof.
  intros fg fok cs d text Hc Hp Hd Ht. destruct (roundtrip fg fok cs d Hc Hp Hd) as (t & d' & E & Hp' & Hs & _).
  assert (t = text) by congruence. subst t. exists d'. split; [exact Hp'|]. rewrite <- Ht. apply dump_same. exact Hs.
Qed.
Print Assumptions C15_idempotent.

(** The text depends on the definitions only, not on their positions or the counters. *)
Theorem C15_positions_irrelevant : forall fg d d', map def_body (doc_defs d) = map def_body (doc_defs d') -> sdump fg d = sdump fg d'.
Proof. exact dump_same. Qed.
Print Assumptions C15_positions_irrelevant.

(** Two documents that meet the conditions and have the same dump have the same definitions. *)
Theorem C15_injective : forall fg fok cs cs' d d', clean cs -> clean cs' -> parse fok (utf8s cs) = Doc d -> parse fok (utf8s cs') = Doc d' ->
  dumpable fg d -> dumpable fg d' -> sdump fg d = sdump fg d' -> same_outcome (Doc d) (Doc d').
Proof.
  intros fg fok cs cs' d d' C1 C2 P1 P2 D1 D2 E.
  destruct (roundtrip fg fok cs d C1 P1 D1) as (t1 & e1 & E1 & Q1 & S1). destruct (roundtrip fg fok cs' d' C2 P2 D2) as (t2 & e2 & E2 & Q2 & S2).
  assert (t1 = t2) by congruence. subst t2. assert (e1 = e2) by congruence. subst e2. eapply same_counters; [exact P1|exact P2|].
  destruct S1 as [S1 _], S2 as [S2 _]. congruence.
Qed.
Print Assumptions C15_injective.

(** *** Every condition is needed *)
Definition lost (fg : bytes -> bytes) (s : bytes) : Prop :=
  exists d text, parse anyfloat s = Doc d /\ sdump fg d = Some text /\ forall d', parse anyfloat text = Doc d' -> ~ same_outcome (Doc d') (Doc d).
Definition lostb (fg : bytes -> bytes) (h : list body -> nat) (s : bytes) : bool :=
  match parse anyfloat s with
  | Doc d => match sdump fg d with
             | Some t => match parse anyfloat t with Doc d' => negb (Nat.eqb (h (map def_body (doc_defs d'))) (h (map def_body (doc_defs d)))) | _ => true end
             | None => false
             end
  | _ => false
  end.
Lemma lost_check fg h s : lostb fg h s = true -> lost fg s.
Proof.
  unfold lostb, lost. intros H. destruct (parse anyfloat s) as [d| | |]; try discriminate. destruct (sdump fg d) as [t|] eqn:E; [|discriminate].
  exists d, t. split; [reflexivity|]. split; [exact E|]. intros d' Hd'. rewrite Hd' in H. intros [S _]. rewrite S, Nat.eqb_refl in H. discriminate.
Qed.
(** What distinguishes a document from the one read back. *)
Definition desc_length (l : list body) : nat := match l with DType t :: _ => List.length (t_desc t) | _ => 0 end.
Definition arg_shape (l : list body) : nat :=
  match l with
  | DOp o :: _ => match o_sels o with SField _ _ (a :: _) _ _ :: _ => match arg_value a with VString s => List.length s | VInt _ => 1 | _ => 0 end | _ => 0 end
  | _ => 0
  end.
Definition bang (t : ty) : nat := if non_nullable t then 1 else 0.
Definition banged (l : list body) : nat :=
  match l with
  | DFrag f :: _ => bang (f_cond f)
  | DOp o :: _ => match o_sels o with SInline (Some t) _ _ :: _ => bang t | _ => 0 end
  | DType t :: _ => match t_impl t ++ t_members t with x :: _ => bang x | [] => 0 end
  | _ => 0
  end.
Definition nothing_else (_ : list body) : nat := 0.
Local Open Scope string_scope.
Definition qq := """".
(** %g prints 1.0 as 1. *)
Definition fg1 (lit : bytes) : bytes := if beqb lit (B "1.0") then B "1" else lit.
Theorem C15_refuted : Forall (fun s => lost fg1 (B s)) [
  (* list types of fields, arguments and input fields vanish *)
  "type A { a: [B] }"; "input A { a: [B!]! }"; "type A { a(b: [C]): D }";
  (* a lone anonymous query with variables or directives loses its keyword *)
  "query ($a: B) { c }"; "query @a { b }";
  (* floats become integers *)
  "{ a(b: 1.0) }";
  (* type conditions, interfaces and members other than a name *)
  "fragment A on B! { c }"; "{ ... on B! { c } }"; "type A implements B! { c: D }"; "union A = [B]"; "union A = B!";
  (* descriptions: indentation, blank first or last lines, triple quotes *)
  qq ++ " x" ++ qq ++ " scalar A"; qq ++ "\n x" ++ qq ++ " scalar A"; qq ++ "x\n" ++ qq ++ " scalar A";
  qq ++ "a\" ++ qq ++ "\" ++ qq ++ "\" ++ qq ++ "b" ++ qq ++ " scalar A";
  (* strings with line feeds: indentation, blank first or last lines, a backslash before a triple quote *)
  "{ a(b: " ++ qq ++ " x\n y" ++ qq ++ ") }"; "{ a(b: " ++ qq ++ "\nx" ++ qq ++ ") }"; "{ a(b: " ++ qq ++ "x\n" ++ qq ++ ") }";
  "{ a(b: " ++ qq ++ "x\ny\\\" ++ qq ++ "\" ++ qq ++ "\" ++ qq ++ qq ++ ") }";
  (* control characters *)
  "{ a(b: " ++ qq ++ "x\ry" ++ qq ++ ") }"; "{ a(b: " ++ qq ++ "x\u0001" ++ qq ++ ") }"].
Proof.
  repeat apply Forall_cons; try apply Forall_nil;
    first [apply (lost_check fg1 nothing_else); vm_compute; reflexivity|apply (lost_check fg1 arg_shape); vm_compute; reflexivity
          |apply (lost_check fg1 desc_length); vm_compute; reflexivity|apply (lost_check fg1 banged); vm_compute; reflexivity].
Qed.
Print Assumptions C15_refuted.

(** *** A document that meets the conditions *)
Notation lf := (String (ascii_of_nat 10) "").
Definition rich : string :=
  "query Q($a: [Int!]! = [1, -2], $b: S = {x: ""a\""b\\c/\u00e9"", y: null}) @d(x: 1.5) {" ++ lf ++
  "  al: f(x: $a, y: -3, z: E, w: true, s: """"""" ++ lf ++ "    one \""""""" ++ lf ++ "      two" ++ lf ++ "  """""") @i { ...F @x ... on T @s { g } ... { h } } }" ++ lf ++
  "fragment F on T @y { x }" ++ lf ++ "mutation { a }" ++ lf ++
  "schema @q { query: A mutation: B! }" ++ lf ++
  """Some text"" scalar S @x" ++ lf ++
  """""""" ++ lf ++ "Two" ++ lf ++ " lines" ++ lf ++ """"""" type A implements I & J & K @x { ""field"" f(""arg"" a: Int! = 3 @z, b: S): T! @y g: U }" ++ lf ++
  "interface I { a: B } union U = A | B union V @x = | A | B | C enum E { A ""b"" B @x } input N { ""in"" a: B = {c: $d} } type Empty" ++ lf ++
  "directive @dir(a: B) on FIELD | QUERY | ENUM_VALUE directive @one on FIELD" ++ lf ++
  "extend schema @y extend scalar S @z extend type A { z: Z } extend union U = D extend input N extend enum E @x".
Definition rich_doc : document := match parse anyfloat (B rich) with Doc d => d | _ => mkDoc [] 0 0 0 0 0 0 0 end.
Lemma rich_parses : parse anyfloat (B rich) = Doc rich_doc.
Proof. vm_compute. reflexivity. Qed.
(** checking the conditions on strings by computation *)
Fixpoint runes (fuel : nat) (s : bytes) : list Z :=
  match fuel, s with S f, _ :: _ => let '(r, w) := decode_rune s in r :: runes f (skipn w s) | _, _ => [] end.
Fixpoint containsb (p l : list Z) : bool :=
  (if list_eq_dec Z.eq_dec (firstn (List.length p) l) p then true else false) || match l with [] => false | _ :: t => containsb p t end.
Definition scalarb (c : Z) : bool := ((0 <=? c) && (c <? 55296) || (57344 <=? c) && (c <? 1114112))%Z.
Definition block_stableb (v : list Z) : bool :=
  forallb (fun c => scalarb c && ((c =? 9) || (c =? 10) || (32 <=? c)))%Z v &&
  negb (blank (hd [] (lines_of v []))) && negb (blank (last (lines_of v []) [])) &&
  existsb (fun l => match l with c :: _ => negb (white c) | [] => false end) (lines_of v []).
Definition stringb (s : bytes) : bool :=
  let v := runes (List.length s) s in
  beqb s (utf8s v) &&
  (if existsb (Z.eqb 10) v then block_stableb v && negb (containsb (92%Z :: triple) v)
   else forallb (fun c => scalarb c && ((c =? 8) || (c =? 9) || (c =? 12) || (32 <=? c)))%Z v).
Definition descb (s : bytes) : bool :=
  let v := runes (List.length s) s in beqb s (utf8s v) && block_stableb v && negb (containsb triple v).
Lemma scalarb_ok c : scalarb c = true -> scalar c. Proof. unfold scalarb, scalar. lia. Qed.
Lemma containsb_ok p l : containsb p l = false -> ~ contains p l.
Proof.
  induction l as [|c l IH]; cbn [containsb]; intros H (a & b & E).
  - destruct a, p, b; discriminate.
  - apply orb_false_iff in H as [H1 H2]. destruct a as [|x a].
    + cbn [app] in E. rewrite E in H1. rewrite firstn_app, firstn_all, Nat.sub_diag, firstn_O, app_nil_r in H1. destruct (list_eq_dec Z.eq_dec p p); [discriminate|congruence].
    + cbn [app] in E. injection E as _ E. apply (IH H2). exists a, b. exact E.
Qed.
Lemma block_stableb_ok v : block_stableb v = true -> block_stable v.
Proof.
  unfold block_stableb, block_stable. rewrite !andb_true_iff. intros (((H1 & H2) & H3) & H4). split; [|split; [|split]].
  - apply Forall_forall. intros c Hc. rewrite forallb_forall in H1. specialize (H1 c Hc). apply andb_true_iff in H1 as [H1 H1']. split; [apply scalarb_ok, H1|lia].
  - apply negb_true_iff, H2.
  - apply negb_true_iff, H3.
  - apply existsb_exists in H4 as (l & Hl & Hw). apply Exists_exists. exists l. split; [exact Hl|]. destruct l as [|c t]; [discriminate|]. exists c, t. split; [reflexivity|]. apply negb_true_iff, Hw.
Qed.
Lemma stringb_ok s : stringb s = true -> string_survives s.
Proof.
  unfold stringb, string_survives. cbv zeta. set (v := runes (List.length s) s). rewrite andb_true_iff. intros [H1 H2]. apply beqb_true in H1. exists v. split; [exact H1|].
  destruct (existsb (Z.eqb 10) v) eqn:E.
  - apply andb_true_iff in H2 as [H2 H3]. split; [intros _; split; [apply block_stableb_ok, H2|apply containsb_ok, negb_true_iff, H3]|].
    intros Hn. exfalso. apply Hn. apply existsb_exists in E as (x & Hx & Ex). apply Z.eqb_eq in Ex. rewrite Ex. exact Hx.
  - split.
    + intros Hin. exfalso. apply not_true_iff_false in E. apply E. apply existsb_exists. exists 10%Z. auto.
    + intros _. apply Forall_forall. intros c Hc. rewrite forallb_forall in H2. specialize (H2 c Hc). apply andb_true_iff in H2 as [H2 H2']. split; [apply scalarb_ok, H2|lia].
Qed.
Lemma descb_ok s : descb s = true -> desc_survives s.
Proof.
  unfold descb, desc_survives. cbv zeta. set (v := runes (List.length s) s). rewrite !andb_true_iff. intros [[H1 H2] H3]. apply beqb_true in H1. right. exists v. split; [exact H1|].
  split; [apply block_stableb_ok, H2|apply containsb_ok, negb_true_iff, H3].
Qed.
Ltac survive := repeat first
  [ match goal with
    | |- Forall _ [] => apply Forall_nil
    | |- Forall _ (_ :: _) => apply Forall_cons; cbv beta
    | |- body_survives _ _ _ => cbn [body_survives def_body dd_desc dd_args]
    | |- op_survives _ _ _ => unfold op_survives; cbn [o_vars o_dirs o_sels o_kind o_name]
    | |- frag_survives _ _ => unfold frag_survives; cbn [f_cond f_dirs f_sels]
    | |- td_survives _ _ => unfold td_survives; cbn [t_desc t_impl t_dirs t_fields t_members t_values t_inputs]
    | |- fd_survives _ _ => unfold fd_survives; cbn [fd_desc fd_args fd_type fd_dirs]
    | |- iv_survives _ _ => unfold iv_survives; cbn [i_desc i_type i_default i_dirs]
    | |- ev_survives _ _ => unfold ev_survives; cbn [ev_desc ev_dirs]
    | |- dirs_survive _ _ => unfold dirs_survive; cbn [s_dirs]
    | |- args_survive _ _ => unfold args_survive; cbn [d_args]
    | |- sel_survives _ _ => constructor
    | |- has_items _ => constructor
    | |- bare _ => eexists; reflexivity
    | |- unlisted _ => eexists _, _; reflexivity
    | |- default_survives _ _ => let E := fresh in intros ? E; cbn in E; first [discriminate E|injection E as <-]
    | |- forall t, Some _ = Some t -> bare t => let E := fresh in intros ? E; injection E as <-
    | |- desc_survives [] => left; reflexivity
    | |- desc_survives _ => apply descb_ok; vm_compute; reflexivity
    | |- string_survives _ => apply stringb_ok; vm_compute; reflexivity
    | |- value_survives _ (arg_value _) => cbn [arg_value]
    | |- value_survives _ (snd _) => cbn [snd]
    | |- value_survives _ _ => constructor
    | |- _ /\ _ => split
    | |- _ = _ => reflexivity
    end
  | discriminate | intros; congruence ].
Lemma rich_dumpable : dumpable (fun lit => lit) rich_doc.
Proof.
  unfold dumpable. generalize (List.length (doc_defs rich_doc) = 1); intros alone.
  let l := eval vm_compute in (doc_defs rich_doc) in replace (doc_defs rich_doc) with l by (vm_compute; reflexivity). survive.
Qed.
Definition cleanb (cs : list Z) : bool := forallb (fun c => scalarb c && negb (c =? 0)%Z) cs.
Lemma cleanb_ok cs : cleanb cs = true -> clean cs.
Proof.
  intros H. apply Forall_forall. intros c Hc. unfold cleanb in H. rewrite forallb_forall in H. specialize (H c Hc). apply andb_true_iff in H as [H1 H2].
  split; [apply scalarb_ok, H1|]. apply negb_true_iff, Z.eqb_neq in H2. exact H2.
Qed.
Example C15_nonvacuous : exists cs d text, clean cs /\ parse anyfloat (utf8s cs) = Doc d /\ dumpable (fun lit => lit) d /\ sdump (fun lit => lit) d = Some text /\
  List.length (doc_defs d) = 20 /\ text <> utf8s cs.
Proof.
  exists (PropLex.src rich), rich_doc. destruct (sdump (fun lit => lit) rich_doc) as [t|] eqn:E; [|vm_compute in E; discriminate]. exists t.
  split; [apply cleanb_ok; vm_compute; reflexivity|]. split; [vm_compute; reflexivity|]. split; [exact rich_dumpable|]. split; [reflexivity|]. split; [vm_compute; reflexivity|].
  intros Ht. apply (f_equal (@List.length _)) in Ht. apply (f_equal (option_map (@List.length _))) in E. cbn [option_map] in E. rewrite Ht in E. vm_compute in E. discriminate.
Qed.

(** ** C16.  The dumper panics exactly when the type of a variable or of a schema's operation has a list type without an item type. *)
Theorem C16_when : forall fg d, sdump fg d <> None <->
  forall x t, In x (doc_defs d) -> In t (printed_types (def_body x)) -> has_items t.
Proof.
  intros fg d. rewrite (ok_sdump fg d). rewrite Forall_forall. split.
  - intros H x t Hx Ht. specialize (H x Hx). rewrite Forall_forall in H. auto.
  - intros H x Hx. apply Forall_forall. intros t Ht. eauto.
Qed.
Print Assumptions C16_when.
(** On parsed documents, only variables matter. *)
Lemma closed_items t : closed_type t <-> has_items t.
Proof.
  split; [|induction 1; [exact I|assumption]]. induction t as [n nn|t IH nn|]; cbn; intros H; [constructor|constructor; auto|contradiction].
Qed.
Lemma named_items lv ts t r : g_named lv ts t r -> has_items t.
Proof. intros H. inversion H; subst; constructor. Qed.
Lemma optypes_items lv ts l r : many (g_optype lv) ts l r -> Forall has_items (map ot_type l).
Proof.
  induction 1 as [|ts a r1 l r H _ IH]; [constructor|]. cbn [map]. constructor; [|exact IH]. inversion H; subst. eapply named_items; eassumption.
Qed.
Lemma body_items fok lv ts b r : g_body fok lv ts b r -> (forall o, b <> DOp o) -> Forall has_items (printed_types b).
Proof.
  intros H Hn. inversion H; subst; cbn [printed_types]; try constructor.
  - exfalso. eapply Hn. reflexivity.
  - match goal with H : g_schema _ _ _ _ _ |- _ => inversion H; subst end. cbn [s_ops]. match goal with H : many1 _ _ _ _ |- _ => destruct H as [H _] end. eapply optypes_items; eassumption.
  - match goal with H : g_schema _ _ _ _ _ |- _ => inversion H; subst end. cbn [s_ops]. match goal with H : many1 _ _ _ _ |- _ => destruct H as [H _] end. eapply optypes_items; eassumption.
  - match goal with H : g_schemaext _ _ _ _ _ |- _ => inversion H; subst end. cbn [s_ops]. match goal with H : g_block _ _ _ _ |- _ => inversion H; subst end; [constructor|].
    match goal with H : many1 _ _ _ _ |- _ => destruct H as [H _] end. eapply optypes_items; eassumption.
Qed.
Lemma defs_items fok lv ts l r : g_defs fok lv ts l r -> forall x, In x l -> (forall o, def_body x <> DOp o) -> Forall has_items (printed_types (def_body x)).
Proof.
  induction 1 as [ts d r H _|ts d r1 l r H _ H2 IH]; intros x Hx Hn.
  - destruct Hx as [<-|[]]. inversion H; subst. cbn [def_body] in *. eapply body_items; eassumption.
  - destruct Hx as [<-|Hx]; [|auto]. inversion H; subst. cbn [def_body] in *. eapply body_items; eassumption.
Qed.
Theorem C16_parsed : forall fg fok i d, parse fok i = Doc d ->
  (sdump fg d <> None <-> forall x o v, In x (doc_defs d) -> def_body x = DOp o -> In v (o_vars o) -> has_items (v_type v)).
Proof.
  intros fg fok i d Hp. rewrite C16_when. destruct (C13_sound fok i d Hp) as (ts & _ & (e & _ & Hg) & _). split.
  - intros H x o v Hx Ho Hv. apply (H x); [exact Hx|]. rewrite Ho. cbn [printed_types]. apply in_map. exact Hv.
  - intros H x t Hx Ht. destruct (def_body x) as [o| | | | | |] eqn:Eb.
    + cbn [printed_types] in Ht. apply in_map_iff in Ht as (v & <- & Hv). eapply H; eassumption.
    + pose proof (defs_items _ _ _ _ _ Hg x Hx ltac:(congruence)) as F. rewrite Eb, Forall_forall in F. exact (F t Ht).
    + pose proof (defs_items _ _ _ _ _ Hg x Hx ltac:(congruence)) as F. rewrite Eb, Forall_forall in F. exact (F t Ht).
    + pose proof (defs_items _ _ _ _ _ Hg x Hx ltac:(congruence)) as F. rewrite Eb, Forall_forall in F. exact (F t Ht).
    + pose proof (defs_items _ _ _ _ _ Hg x Hx ltac:(congruence)) as F. rewrite Eb, Forall_forall in F. exact (F t Ht).
    + pose proof (defs_items _ _ _ _ _ Hg x Hx ltac:(congruence)) as F. rewrite Eb, Forall_forall in F. exact (F t Ht).
    + pose proof (defs_items _ _ _ _ _ Hg x Hx ltac:(congruence)) as F. rewrite Eb, Forall_forall in F. exact (F t Ht).
Qed.
Print Assumptions C16_parsed.
(** Documents of the June 2018 grammar (and of its relaxation [Lenient]) are always dumped. *)
Theorem C16_grammatical : forall fg fok i ts lv ds, tokens i ts -> lv = June2018 \/ lv = Lenient -> g_document fok lv ts ds ->
  exists d text, parse fok i = Doc d /\ sdump fg d = Some text.
Proof.
  intros fg fok i ts lv ds Ht Hlv Hg. destruct (C12_complete fok i ts lv ds Ht Hlv Hg) as (d & Hd & <-).
  assert (Hc : Forall (fun x => body_types closed_type (def_body x)) (doc_defs d)) by (eapply lenient_closed; [|exact Hg]; destruct Hlv; subst; discriminate).
  assert (N : sdump fg d <> None).
  { apply (proj2 (C16_parsed fg fok i d Hd)). intros x o v Hx Ho Hv. rewrite Forall_forall in Hc. specialize (Hc x Hx). rewrite Ho in Hc. cbn [body_types] in Hc. rewrite Forall_forall in Hc.
    apply closed_items. exact (Hc v Hv). }
  destruct (sdump fg d) as [t|] eqn:E; [|congruence]. exists d, t. auto.
Qed.
Print Assumptions C16_grammatical.
Theorem C16_refuted : exists d, parse anyfloat (B "query ($a: [) { b }") = Doc d /\ forall fg, sdump fg d = None.
Proof. eexists. split; [vm_compute; reflexivity|]. intros fg. reflexivity. Qed.
Print Assumptions C16_refuted.
Example C16_nonvacuous : exists d, parse anyfloat (B "query ($a: [[B!]]!) { b }") = Doc d /\ (forall x o v, In x (doc_defs d) -> def_body x = DOp o -> In v (o_vars o) -> has_items (v_type v)) /\
  exists x o v, In x (doc_defs d) /\ def_body x = DOp o /\ In v (o_vars o).
Proof.
  eexists. split; [vm_compute; reflexivity|]. cbn [doc_defs]. split.
  - intros x o v [<-|[]] E Hv. cbn [def_body] in E. injection E as <-. cbn [o_vars In] in Hv. destruct Hv as [<-|[]]. cbn [v_type]. repeat constructor.
  - eexists _, _, _. split; [left; reflexivity|]. split; [reflexivity|]. left. reflexivity.
Qed.
