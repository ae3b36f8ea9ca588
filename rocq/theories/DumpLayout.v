(** * DumpLayout: how a dumped document is laid out in lines.  The specification comes first, the proofs after it. *)
From Verif Require Import Base Utf8 Utf8Proofs Lexer LexSpec AST Dumper DumpWords DumpProofs WellFormed NameTokens.
From Verif Require DumpGrammar.
From Coq Require Import ZifyBool.

(** ** Specification *)
(** A text in which every line ends with a line feed. *)
Definition unlines (ls : list bytes) : bytes := flat_map (fun l => l ++ [ascii_of_nat 10]) ls.
Definition one_line (b : bytes) : Prop := ~ In (ascii_of_nat 10) b.
(** [n] levels of two spaces. *)
Definition pad (n : nat) : bytes := List.repeat " "%char (2 * n).
Definition begins (w h : bytes) : Prop := exists rest, h = w ++ rest.

(** What the line of a selection begins with, and the selections inside it. *)
Definition opening (s : selection) : bytes :=
  match s with
  | SField [] name _ _ _ => name
  | SField alias name _ _ _ => alias ++ B ": " ++ name
  | SSpread name _ => B "..." ++ name
  | SInline (Some (TNamed t _)) _ _ => B "... on " ++ t
  | SInline _ _ _ => B "..."
  end.
Definition inside (s : selection) : list selection :=
  match s with SField _ _ _ _ ss | SInline _ _ ss => ss | SSpread _ _ => [] end.

(** A selection at a level: one line; or a line ending in a brace, the selections inside one level deeper, and a line with
    the closing brace. *)
Inductive laid : nat -> selection -> list bytes -> Prop :=
| laid_leaf n s head : begins (opening s) head -> one_line head -> inside s = [] -> laid n s [pad n ++ head]
| laid_node n s head ls : begins (opening s) head -> one_line head -> inside s <> [] -> all_laid (S n) (inside s) ls ->
    laid n s ((pad n ++ head ++ B " {") :: ls ++ [pad n ++ B "}"])
with all_laid : nat -> list selection -> list bytes -> Prop :=
| al_nil n : all_laid n [] []
| al_cons n s ss ls ls' : laid n s ls -> all_laid n ss ls' -> all_laid n (s :: ss) (ls ++ ls').

(** A description: its lines between two lines of three quotes, not indented; nothing if there is none. *)
Definition block (d : bytes) (ls : list bytes) : Prop :=
  match d with
  | [] => ls = []
  | _ => exists inner, ls = B """""""" :: inner ++ [B """"""""] /\ unlines inner = d ++ [ascii_of_nat 10] /\ Forall one_line inner
  end.
(** A list of items, each with a description and a name, in braces, one line each below its description; no braces if there is none. *)
Inductive items : list (bytes * bytes) -> list bytes -> Prop :=
| items_nil : items [] []
| items_cons d n r bl l ls : block d bl -> begins (pad 1 ++ n) l -> one_line l -> items r ls -> items ((d, n) :: r) (bl ++ l :: ls).
Definition braces (head : bytes) (its : list (bytes * bytes)) (ls : list bytes) : Prop :=
  match its with [] => ls = [head] | _ => exists inner, ls = (head ++ B " {") :: inner ++ [B "}"] /\ items its inner end.
(** Names after a head: on its line, or one line each when there are three or more. *)
Definition bars (names : list bytes) (head : bytes) (ls : list bytes) : Prop :=
  Forall one_line names /\ ls = if Nat.ltb (List.length names) 3 then [head] else head :: map (fun n => pad 1 ++ B "| " ++ n) names.
(** The locations of a directive definition, in the order of the specification: those whose bit is set. *)
Definition places (l : dirloc) : list bytes :=
  map snd (filter (fun p => N.testbit l (N.of_nat (fst p))) (combine (seq 0 (List.length location_names)) location_names)).

Definition op_word (k : opkind) : bytes := match k with Query => B "query" | Mutation => B "mutation" | Subscription => B "subscription" end.
Definition kind_word (k : tkindT) : bytes :=
  match k with KScalar => B "scalar " | KObject => B "type " | KInterface => B "interface " | KUnion => B "union " | KEnum => B "enum " | KInputObject => B "input " end.
Definition item_names (t : tydef) : list (bytes * bytes) :=
  match t_kind t with
  | KObject | KInterface => map (fun f => (fd_desc f, fd_name f)) (t_fields t)
  | KEnum => map (fun e => (ev_desc e, ev_name e)) (t_values t)
  | KInputObject => map (fun i => ([], i_name i)) (t_inputs t)
  | _ => []
  end.
(** Interfaces, one line each, [k] levels in; the last is the head of the braces. *)
Fixpoint implementing (k : nat) (names : list bytes) (its : list (bytes * bytes)) (ls : list bytes) : Prop :=
  match names with
  | [] => False
  | [n] => exists last, begins (pad k ++ B "& " ++ n) last /\ one_line last /\ braces last its ls
  | n :: r => exists ls', ls = (pad k ++ B "& " ++ n) :: ls' /\ one_line n /\ implementing k r its ls'
  end.
(** Up to two interfaces are in the head.  Three or more follow it, one level in, or two if there are fields. *)
Definition object_laid (names : list bytes) (its : list (bytes * bytes)) (head : bytes) (ls : list bytes) : Prop :=
  if Nat.ltb (List.length names) 3 then braces head its ls
  else exists w ls', head = w ++ B " implements" /\ ls = head :: ls' /\ implementing (match its with [] => 1 | _ => 2 end) names its ls'.
Definition interface_names (t : tydef) : list bytes := map named_type (t_impl t).
Definition type_laid (t : tydef) (head : bytes) (ls : list bytes) : Prop :=
  match t_kind t with
  | KUnion => bars (map named_type (t_members t)) head ls
  | KObject => object_laid (interface_names t) (item_names t) head ls
  | _ => braces head (item_names t) ls
  end.

(** A definition without its description; [lone]: it is the only one of its document. *)
Definition def_lines (lone : bool) (b : body) (ls : list bytes) : Prop :=
  exists head, one_line head /\
  match b with
  | DOp o => exists inner, ls = (head ++ (if lone then B "{" else B " {")) :: inner ++ [B "}"] /\ all_laid 1 (o_sels o) inner /\
      begins (match o_kind o, lone, o_name o with Query, true, [] => [] | k, _, n => op_word k ++ B " " ++ n end) head
  | DFrag f => exists inner, ls = (head ++ B " {") :: inner ++ [B "}"] /\ all_laid 1 (f_sels f) inner /\ begins (B "fragment " ++ f_name f ++ B " on ") head
  | DSchema s => braces head (map (fun o => ([], op_word (ot_op o))) (s_ops s)) ls /\ begins (B "schema") head
  | XSchema s => braces head (map (fun o => ([], op_word (ot_op o))) (s_ops s)) ls /\ begins (B "extend schema") head
  | DType t => type_laid t head ls /\ begins (kind_word (t_kind t) ++ t_name t) head
  | XType t => type_laid t head ls /\ begins (B "extend " ++ kind_word (t_kind t) ++ t_name t) head
  | DDir d => bars (places (dd_locs d)) head ls /\ begins (B "directive @" ++ dd_name d) head
  end.
Definition description (b : body) : bytes := match b with DType t => t_desc t | DDir d => dd_desc d | _ => [] end.
Definition def_laid (lone : bool) (b : body) (ls : list bytes) : Prop :=
  exists above below, ls = above ++ below /\ block (description b) above /\ def_lines lone b below.
(** Definitions are separated by an empty line. *)
Fixpoint separated (lss : list (list bytes)) : list bytes :=
  match lss with [] => [] | [ls] => ls | ls :: r => ls ++ [] :: separated r end.

(** The string values of a document. *)
Fixpoint value_strings (v : value) : list bytes :=
  match v with VString s => [s] | VList l => flat_map value_strings l | VObject fs => flat_map (fun f => value_strings (snd f)) fs | _ => [] end.
Definition args_strings (l : list argument) := flat_map (fun a => value_strings (arg_value a)) l.
Definition dirs_strings (l : list directive) := flat_map (fun d => args_strings (d_args d)) l.
Definition default_strings (v : option value) := match v with Some v => value_strings v | None => [] end.
Fixpoint sel_strings (s : selection) : list bytes :=
  match s with
  | SField _ _ args ds ss => args_strings args ++ dirs_strings ds ++ flat_map sel_strings ss
  | SSpread _ ds => dirs_strings ds
  | SInline _ ds ss => dirs_strings ds ++ flat_map sel_strings ss
  end.
Definition input_strings (i : ivdef) := default_strings (i_default i) ++ dirs_strings (i_dirs i).
Definition field_strings (f : fielddef) := flat_map input_strings (fd_args f) ++ dirs_strings (fd_dirs f).
Definition type_strings (t : tydef) :=
  dirs_strings (t_dirs t) ++ flat_map field_strings (t_fields t) ++ flat_map (fun e => dirs_strings (ev_dirs e)) (t_values t) ++ flat_map input_strings (t_inputs t).
Definition body_strings (b : body) : list bytes :=
  match b with
  | DOp o => flat_map (fun v => default_strings (v_default v)) (o_vars o) ++ dirs_strings (o_dirs o) ++ flat_map sel_strings (o_sels o)
  | DFrag f => dirs_strings (f_dirs f) ++ flat_map sel_strings (f_sels f)
  | DSchema s | XSchema s => dirs_strings (s_dirs s)
  | DType t | XType t => type_strings t
  | DDir d => flat_map input_strings (dd_args d)
  end.
Definition type_descriptions (t : tydef) := flat_map (fun f => map i_desc (fd_args f)) (t_fields t) ++ map i_desc (t_inputs t).
(** The descriptions of arguments and of fields of input objects. *)
Definition descriptions (b : body) : list bytes :=
  match b with
  | DType t | XType t => type_descriptions t
  | DDir d => map i_desc (dd_args d)
  | _ => []
  end.
(** No line feed in a string value, no description of an argument or of a field of an input object. *)
Definition simple_body (b : body) : Prop :=
  Forall one_line (body_strings b) /\ Forall (eq []) (descriptions b).

(** ** Proofs *)
Lemma unlines_app a b : unlines (a ++ b) = unlines a ++ unlines b. Proof. apply flat_map_app. Qed.
Lemma unlines_cons l ls : unlines (l :: ls) = l ++ LF :: unlines ls.
Proof. unfold unlines. cbn [flat_map]. rewrite <- app_assoc. reflexivity. Qed.
Lemma one_app a b : one_line a -> one_line b -> one_line (a ++ b).
Proof. intros Ha Hb H. apply in_app_or in H. destruct H; auto. Qed.
Lemma one_nil : one_line []. Proof. intros []. Qed.
Lemma one_check s : forallb (fun b => negb (Ascii.eqb b LF)) (B s) = true -> one_line (B s).
Proof.
  intros H F. rewrite forallb_forall in H. specialize (H _ F). rewrite negb_true_iff in H.
  change LF with (ascii_of_nat 10) in H. rewrite Ascii.eqb_refl in H. discriminate.
Qed.
Lemma pad_repeats n : repeats indentation n = pad n.
Proof.
  unfold pad. induction n as [|n IH]; [reflexivity|]. cbn [repeats]. rewrite IH. replace (2 * S n) with (S (S (2 * n))) by lia. reflexivity.
Qed.
Lemma one_pad n : one_line (pad n).
Proof. intros H. apply repeat_spec in H. discriminate. Qed.

(** A writer that writes one line. *)
Definition line (w : W) : Prop := forall t, w = Some t -> one_line t.
Lemma wseq_inv a b t : a +++ b = Some t -> exists x y, a = Some x /\ b = Some y /\ t = x ++ y.
Proof. destruct a as [x|], b as [y|]; try discriminate. intros H. injection H as <-. eauto. Qed.
Lemma line_wr b : one_line b -> line (wr b). Proof. intros H t E. injection E as <-. exact H. Qed.
Lemma line_ws s : forallb (fun b => negb (Ascii.eqb b LF)) (B s) = true -> line (ws s).
Proof. intros H. apply line_wr, one_check, H. Qed.
Lemma line_seq a b : line a -> line b -> line (a +++ b).
Proof. intros Ha Hb t H. apply wseq_inv in H as (x & y & Ex & Ey & ->). apply one_app; auto. Qed.
Lemma line_skip : line wskip. Proof. apply line_wr, one_nil. Qed.
Lemma line_when c a : line a -> line (wwhen c a). Proof. destruct c; [auto|intros _; apply line_skip]. Qed.
Lemma line_fori {A} (f : nat -> A -> W) l i : (forall i x, In x l -> line (f i x)) -> line (wfori f i l).
Proof.
  revert i. induction l as [|x l IH]; intros i H; [apply line_skip|]. cbn [wfori]. apply line_seq; [apply H; left; reflexivity|].
  apply IH. intros j y Hy. apply H. right. exact Hy.
Qed.
Lemma line_for {A} (f : nat -> A -> W) l : (forall i x, In x l -> line (f i x)) -> line (wfor f l).
Proof. apply line_fori. Qed.

(** Escaped strings. *)
Lemma utf8_lf c : scalar c -> In LF (utf8 c) -> c = 10%Z.
Proof.
  intros Hc H. assert (T : forall a, (0 <= a < 64)%Z -> bz (128 + a) <> LF).
  { intros a Ha E. apply (f_equal zb) in E. rewrite zb_bz in E by lia. vm_compute (zb LF) in E. lia. }
  assert (S1 : forall a b, bz a = LF -> (0 <= a < 256)%Z -> a <> 10%Z -> b).
  { intros a b E Ha Hn. apply (f_equal zb) in E. rewrite zb_bz in E by lia. vm_compute (zb LF) in E. lia. }
  pose proof (Z.mod_pos_bound (c / 64) 64 ltac:(lia)). pose proof (Z.mod_pos_bound c 64 ltac:(lia)). pose proof (Z.mod_pos_bound (c / 4096) 64 ltac:(lia)).
  unfold scalar in Hc. unfold utf8 in H. destruct (Z.ltb_spec c 128).
  - destruct H as [H|[]]. apply (f_equal zb) in H. rewrite zb_bz in H by lia. vm_compute (zb LF) in H. exact H.
  - exfalso. destruct (Z.ltb_spec c 2048).
    + assert (0 <= c / 64 < 32)%Z by (split; [apply Z.div_pos|apply Z.div_lt_upper_bound]; lia).
      destruct H as [H|[H|[]]]; [apply (S1 _ _ H); lia|(refine (T _ _ H); assumption)].
    + destruct (Z.ltb_spec c 65536).
      * assert (0 <= c / 4096 < 16)%Z by (split; [apply Z.div_pos|apply Z.div_lt_upper_bound]; lia).
        destruct H as [H|[H|[H|[]]]]; [apply (S1 _ _ H); lia|(refine (T _ _ H); assumption)..].
      * assert (0 <= c / 262144 < 8)%Z by (split; [apply Z.div_pos|apply Z.div_lt_upper_bound]; lia).
        destruct H as [H|[H|[H|[H|[]]]]]; [apply (S1 _ _ H); lia|(refine (T _ _ H); assumption)..].
Qed.
Lemma esc_cp_ten c : scalar c -> c <> 10%Z -> Forall (fun x => scalar x /\ x <> 10%Z) (esc_cp c).
Proof.
  intros Hs Hc. unfold esc_cp.
  assert (Nb : forall n, (0 <= n < 16)%Z -> scalar (nib n) /\ nib n <> 10%Z).
  { intros n Hn. destruct (nib_hex n Hn) as [_ Hb]. unfold scalar. lia. }
  destruct ((128 <=? c) && (c <=? 65535))%Z eqn:E.
  - repeat apply Forall_cons; try (unfold scalar; lia); try apply Forall_nil; apply Nb; try (apply Z.mod_pos_bound; lia).
    split; [apply Z.div_pos; lia|apply Z.div_lt_upper_bound; lia].
  - repeat (match goal with |- context [if ?b then _ else _] => destruct b end); repeat apply Forall_cons; try apply Forall_nil; try (unfold scalar; lia); auto.
Qed.
Lemma escape_rune_line c : scalar c -> c <> 10%Z -> one_line (escape_rune c).
Proof.
  intros Hs Hc. rewrite (escape_rune_cp c Hs). pose proof (esc_cp_ten c Hs Hc) as F. intros H. unfold utf8s in H. apply in_flat_map in H as (x & Hx & H).
  rewrite Forall_forall in F. destruct (F x Hx) as [F1 F2]. apply F2, (utf8_lf x F1 H).
Qed.
Lemma skipn_one n b : one_line b -> one_line (skipn n b).
Proof. intros H F. apply H. rewrite <- (firstn_skipn n b). apply in_or_app. right. exact F. Qed.
Lemma escape_one s : one_line s -> one_line (escapeGraphQLString s).
Proof.
  unfold escapeGraphQLString. generalize (List.length s). intros n. revert s. induction n as [|n IH]; intros s H; [intros []|].
  cbn [escape_loop]. destruct s as [|b t]; [intros []|]. destruct (decode_rune (b :: t)) as [r w] eqn:E.
  apply one_app; [|apply IH, skipn_one, H].
  destruct (Z.ltb_spec (zb b) 128) as [L|L].
  - assert (D : decode_rune (b :: t) = (zb b, 1)) by (unfold decode_rune; cbv zeta; replace (zb b <? 128)%Z with true by lia; reflexivity).
    rewrite D in E. injection E as <- _. apply escape_rune_line; [pose proof (zb_range b); unfold scalar; lia|].
    intros Hb. apply H. left. apply (f_equal bz) in Hb. rewrite bz_zb in Hb. rewrite Hb. reflexivity.
  - destruct (decode_rune_ge b t L) as [G1 G2]. rewrite E in G1, G2. cbn [fst] in G1, G2. apply escape_rune_line; [exact G2|lia].
Qed.

Section Layout.
Variable fg : bytes -> bytes.
Hypothesis Hfg : forall l, one_line (fg l).
Variable ident : bytes -> Prop.
Hypothesis Hid : forall n, ident n -> one_line n.
Variable fl : bytes -> Prop.
Notation ones := (Forall one_line).

Lemma digits_one n : one_line (itoaN n).
Proof.
  unfold itoaN. assert (G : forall f m acc, one_line acc -> one_line (digits_of f m acc)).
  { induction f as [|f IH]; intros m acc H; [exact H|]. cbn [digits_of]. cbv zeta.
    assert (D : one_line (ascii_of_N (48 + m mod 10) :: acc)).
    { intros [E|F]; [|exact (H F)]. apply (f_equal N_of_ascii) in E. rewrite N_ascii_embedding in E.
      - vm_compute (N_of_ascii (ascii_of_nat 10)) in E. lia.
      - pose proof (N.mod_lt m 10 ltac:(lia)). lia. }
    destruct (N.ltb m 10); [exact D|apply IH, D]. }
  apply G, one_nil.
Qed.
Lemma itoa_one z : one_line (itoa z).
Proof. unfold itoa. destruct (Z.ltb z 0); [apply one_app; [apply one_check; reflexivity|]|]; apply digits_one. Qed.

Ltac wsl := apply line_ws; reflexivity.
Lemma existsb_lf s : one_line s -> existsb (Ascii.eqb LF) s = false.
Proof.
  intros H. destruct (existsb (Ascii.eqb LF) s) eqn:E; [|reflexivity]. exfalso. apply existsb_exists in E as (x & Hx & E).
  apply Ascii.eqb_eq in E. subst x. exact (H Hx).
Qed.
Lemma ones_flat {A} (f : A -> list bytes) l : ones (flat_map f l) -> forall x, In x l -> ones (f x).
Proof. intros H x Hx. apply Forall_forall. intros s Hs. rewrite Forall_forall in H. apply H, in_flat_map. eauto. Qed.

Lemma line_value v : forall d, wf_value ident fl v -> ones (value_strings v) -> line (dumpValue fg d v).
Proof.
  induction v as [n|z|l|s|b| |n|l IH|fs IH] using value_nest; intros d Hw Hs; cbn [dumpValue].
  - inversion Hw; subst. apply line_seq; [wsl|apply line_wr; auto].
  - apply line_wr, itoa_one.
  - apply line_wr, Hfg.
  - cbn [value_strings] in Hs. pose proof (Forall_inv Hs) as H. unfold dumpString. rewrite (existsb_lf s H).
    apply line_seq; [wsl|]. apply line_seq; [apply line_wr, escape_one, H|wsl].
  - destruct b; wsl.
  - wsl.
  - inversion Hw; subst. apply line_wr, Hid. match goal with H : enum_ident _ _ |- _ => apply H end.
  - apply line_seq; [wsl|]. apply line_seq; [|wsl]. apply line_for. intros i x Hx. apply line_seq; [|apply line_when; wsl].
    inversion Hw as [| | | | | | |? Hl|]; subst. rewrite Forall_forall in IH, Hl. apply IH; [exact Hx|apply Hl, Hx|]. cbn [value_strings] in Hs. apply (ones_flat _ _ Hs x Hx).
  - apply line_seq; [wsl|]. apply line_seq; [|wsl]. apply line_for. intros i x Hx.
    inversion Hw as [| | | | | | | |? Hl]; subst. rewrite Forall_forall in IH. pose proof (proj1 (Forall_forall _ _) Hl x Hx) as [Hn Hv].
    apply line_seq; [apply line_wr, Hid, Hn|]. apply line_seq; [wsl|]. apply line_seq; [|apply line_when; wsl].
    apply IH; [exact Hx|exact Hv|]. cbn [value_strings] in Hs. apply (ones_flat _ _ Hs x Hx).
Qed.
Lemma line_type t : wf_type ident t -> line (dumpType t).
Proof.
  induction t as [n nn|t IH nn|]; cbn [wf_type dumpType]; intros H.
  - apply line_seq; [apply line_wr; auto|apply line_when; wsl].
  - apply line_seq; [wsl|]. apply line_seq; [auto|]. apply line_seq; [wsl|apply line_when; wsl].
  - intros t E. discriminate.
Qed.
Lemma named_one t : wf_type ident t -> one_line (named_type t).
Proof. destruct t; cbn; intros H; auto; apply one_nil. Qed.
Lemma wf_named_type t : wf_named ident t -> wf_type ident t.
Proof. intros (n & nn & -> & H). exact H. Qed.

Lemma line_args d args : wf_arguments ident fl args -> ones (args_strings args) -> line (dumpArguments fg d args).
Proof.
  intros Hw Hs. unfold dumpArguments. destruct (Nat.eqb (List.length args) 0); [apply line_skip|]. apply line_seq; [wsl|]. apply line_seq; [|wsl].
  apply line_for. intros i a Ha. apply line_seq; [|apply line_when; wsl]. unfold dumpArgument. pose proof (proj1 (Forall_forall _ _) Hw a Ha) as [Hn Hv].
  apply line_seq; [apply line_wr; auto|]. apply line_seq; [wsl|]. apply line_value; [exact Hv|]. apply (ones_flat _ _ Hs a Ha).
Qed.
Lemma line_dirs d p ds : wf_directives ident fl p ds -> ones (dirs_strings ds) -> line (dumpOptDirectives fg d ds).
Proof.
  intros Hw Hs. apply line_when, line_seq; [wsl|]. apply line_for. intros i x Hx. apply line_seq; [apply line_when; wsl|].
  pose proof (proj1 (Forall_forall _ _) Hw x Hx) as (Hn & Ha & _). unfold dumpDirective. apply line_seq; [wsl|]. apply line_seq; [apply line_wr; auto|].
  apply line_args; [exact Ha|]. apply (ones_flat _ _ Hs x Hx).
Qed.
Lemma ones_app a b : ones (a ++ b) -> ones a /\ ones b. Proof. apply Forall_app. Qed.

(** Selections. *)
Lemma wfor_lines {A} (f : A -> W) (R : A -> list bytes -> Prop) (all : list A -> list bytes -> Prop) l :
  (forall x t, In x l -> f x = Some t -> exists ls, R x ls /\ t ++ [LF] = unlines ls) ->
  all [] [] -> (forall x xs ls ls', R x ls -> all xs ls' -> all (x :: xs) (ls ++ ls')) ->
  forall t, wfor (fun _ x => f x +++ wlf) l = Some t -> exists ls, all l ls /\ t = unlines ls.
Proof.
  intros Hf H0 H1. unfold wfor. generalize 0. induction l as [|x l IH]; intros i t E.
  - injection E as <-. exists []. split; [exact H0|reflexivity].
  - cbn [wfori] in E. apply wseq_inv in E as (a & b & Ea & Eb & ->). apply wseq_inv in Ea as (c & e & Ec & Ee & ->). injection Ee as <-.
    destruct (Hf x c (or_introl eq_refl) Ec) as (ls & Hr & El).
    destruct (IH (fun y t Hy => Hf y t (or_intror Hy)) _ _ Eb) as (ls' & Hr' & ->).
    exists (ls ++ ls'). split; [apply H1; assumption|]. rewrite unlines_app, El. reflexivity.
Qed.
Lemma sels_lines d ss : (forall s t, In s ss -> dumpSelection fg d s = Some t -> exists ls, laid (S d) s ls /\ t ++ [LF] = unlines ls) ->
  forall t, wfor (fun _ x => dumpSelection fg d x +++ wlf) ss = Some t -> exists ls, all_laid (S d) ss ls /\ t = unlines ls.
Proof. intros H. apply (wfor_lines _ (laid (S d))); [exact H|constructor|]. intros; constructor; assumption. Qed.

(** a writer whose first output is [w] *)
Definition starts (w : bytes) (a : W) : Prop := forall t, a = Some t -> begins w t.
Lemma starts_seq w a b : starts w a -> starts w (a +++ b).
Proof. intros H t E. apply wseq_inv in E as (x & y & Ex & Ey & ->). destruct (H x Ex) as (r & ->). exists (r ++ y). symmetry. apply app_assoc. Qed.
Lemma starts_more v w a : starts w a -> starts (v ++ w) (wr v +++ a).
Proof. intros H t E. apply wseq_inv in E as (x & y & Ex & Ey & ->). injection Ex as <-. destruct (H y Ey) as (r & ->). exists r. apply app_assoc. Qed.
Lemma starts_wr w : starts w (wr w).
Proof. intros t E. injection E as <-. exists []. symmetry. apply app_nil_r. Qed.
Lemma starts_nil a : starts [] a. Proof. intros t _. exists t. reflexivity. Qed.

Lemma sel_lines s : forall d t, wf_selection ident fl s -> ones (sel_strings s) -> dumpSelection fg d s = Some t ->
  exists ls, laid (S d) s ls /\ t ++ [LF] = unlines ls.
Proof.
  assert (Node : forall d s ss h t', begins (opening s) h -> one_line h -> inside s = ss -> ss <> [] ->
     (forall s', In s' ss -> forall d t, dumpSelection fg d s' = Some t -> exists ls, laid (S d) s' ls /\ t ++ [LF] = unlines ls) ->
     (ws "{" +++ wlf +++ wfor (fun _ x => dumpSelection fg (S d) x +++ wlf) ss +++ indent (S d) +++ ws "}") = Some t' ->
     exists ls, laid (S d) s ls /\ (pad (S d) ++ h ++ B " " ++ t') ++ [LF] = unlines ls).
  { intros d s0 ss h t' Hb Ho Hi Hn IH E. apply wseq_inv in E as (a & b & Ea & E & ->). injection Ea as <-.
    apply wseq_inv in E as (a & b' & Ea & E & ->). injection Ea as <-.
    apply wseq_inv in E as (a & b & Ea & E & ->). destruct (sels_lines (S d) ss (fun s' t Hs' => IH s' Hs' (S d) t) a Ea) as (ls & Hl & ->).
    apply wseq_inv in E as (pd & cl & Ep & Ecl & ->). unfold indent in Ep. rewrite pad_repeats in Ep. injection Ep as <-. injection Ecl as <-.
    exists ((pad (S d) ++ h ++ B " {") :: ls ++ [pad (S d) ++ B "}"]). split.
    - apply laid_node; [exact Hb|exact Ho|rewrite Hi; exact Hn|rewrite Hi; exact Hl].
    - rewrite unlines_cons, unlines_app, unlines_cons. cbn [unlines flat_map]. change (B " {") with (B " " ++ B "{"). rewrite <- !app_assoc. reflexivity. }
  induction s as [al n args ds ss IH|n ds|c ds ss IH] using selection_nest; intros d t Hw Hs E; cbn [dumpSelection] in E; cbv zeta in E.
  - inversion Hw as [? ? ? ? ? Wal Wn Wa Wd Wss| |]; subst. cbn [sel_strings] in Hs. apply ones_app in Hs as [Sa Hs]. apply ones_app in Hs as [Sd Ss].
    assert (Hd : line (wwhen (nonnil al) (wr al +++ ws ": ") +++ wr n +++ dumpArguments fg (S d) args +++ dumpOptDirectives fg (S d) ds) /\
                 starts (opening (SField al n args ds ss)) (wwhen (nonnil al) (wr al +++ ws ": ") +++ wr n +++ dumpArguments fg (S d) args +++ dumpOptDirectives fg (S d) ds)).
    { split.
      - apply line_seq; [apply line_when, line_seq; [apply line_wr; destruct Wal as [->|Wal]; [apply one_nil|auto]|wsl]|].
        apply line_seq; [apply line_wr; auto|]. apply line_seq; [apply line_args; assumption|eapply line_dirs; eassumption].
      - destruct al as [|x al].
        + cbn [nonnil wwhen opening]. change (wskip +++ wr n +++ dumpArguments fg (S d) args +++ dumpOptDirectives fg (S d) ds) with (wr [] +++ wr n +++ dumpArguments fg (S d) args +++ dumpOptDirectives fg (S d) ds).
          apply (starts_more [] n), starts_seq, starts_wr.
        + cbn [nonnil wwhen opening]. rewrite DumpProofs.wseq_assoc. apply starts_more. apply (starts_more (B ": ") n), starts_seq, starts_wr. }
    destruct Hd as [Hline Hst].
    apply wseq_inv in E as (p & r & Ep & E & ->). unfold indent in Ep. rewrite pad_repeats in Ep. injection Ep as <-.
    rewrite <- !DumpProofs.wseq_assoc in E. apply wseq_inv in E as (h & tl & Eh & E & ->).
    rewrite !DumpProofs.wseq_assoc in Eh, E. pose proof (Hline h Eh) as Hh. pose proof (Hst h Eh) as Hb.
    destruct ss as [|s1 ss].
    + cbn [nonnil wwhen] in E. injection E as <-. exists [pad (S d) ++ h]. split; [apply laid_leaf; [exact Hb|exact Hh|reflexivity]|].
      unfold unlines. cbn [flat_map]. rewrite !app_nil_r. reflexivity.
    + cbn [nonnil wwhen] in E. rewrite ?DumpProofs.wseq_assoc in E. apply wseq_inv in E as (sp & t' & Es & E & ->). injection Es as <-.
      eapply Node; [exact Hb|exact Hh|reflexivity|discriminate| |exact E].
      intros s' Hs' d' t0 E0. pose proof (proj1 (Forall_forall _ _) IH s' Hs') as IH'. apply IH' with (3 := E0).
      * exact (proj1 (Forall_forall _ _) Wss s' Hs'). * exact (ones_flat _ _ Ss s' Hs').
  - inversion Hw as [|? ? Wn Wd|]; subst. cbn [sel_strings] in Hs.
    apply wseq_inv in E as (p & h & Ep & E & ->). unfold indent in Ep. rewrite pad_repeats in Ep. injection Ep as <-.
    exists [pad (S d) ++ h]. split; [|unfold unlines; cbn [flat_map]; rewrite !app_nil_r; reflexivity].
    apply laid_leaf; [|revert E; apply line_seq; [wsl|apply line_seq; [apply line_wr, Hid, Wn|eapply line_dirs; eassumption]]|reflexivity].
    apply (starts_more (B "...") n (wr n +++ dumpOptDirectives fg (S d) ds)); [apply starts_seq, starts_wr|exact E].
  - inversion Hw as [| |? ? ? Wc Wd Wn Wss]; subst. cbn [sel_strings] in Hs. apply ones_app in Hs as [Sd Ss].
    apply wseq_inv in E as (p & r & Ep & E & ->). unfold indent in Ep. rewrite pad_repeats in Ep. injection Ep as <-.
    match type of E with ws "..." +++ ?c +++ ?dd +++ ?rest = Some r =>
      assert (E2 : (ws "..." +++ c +++ dd) +++ rest = Some r) by (rewrite !DumpProofs.wseq_assoc; exact E) end.
    clear E. apply wseq_inv in E2 as (h & x & Eh & E & ->). apply wseq_inv in E as (sp & t' & Es & E & ->). injection Es as <-.
    eapply Node; [| |reflexivity|exact Wn| |exact E].
    + destruct c as [t0|].
      * destruct (Wc t0 eq_refl) as (nm & nn & -> & Hnm). cbn [opening named_type] in *.
        revert Eh. apply (starts_more (B "...") (B " on " ++ nm) ((ws " " +++ ws "on" +++ ws " " +++ wr nm) +++ dumpOptDirectives fg (S d) ds)).
        apply starts_seq. intros t0 E0. cbn in E0. injection E0 as <-. exists []. rewrite app_nil_r. reflexivity.
      * cbn [opening]. revert Eh. apply (starts_seq (B "...") (ws "...")), starts_wr.
    + revert Eh. apply line_seq; [wsl|]. apply line_seq; [|eapply line_dirs; eassumption].
      destruct c as [t0|]; [|apply line_skip]. apply line_seq; [wsl|]. apply line_seq; [wsl|]. apply line_seq; [wsl|].
      apply line_wr, named_one, wf_named_type, (Wc t0 eq_refl).
    + intros s' Hs' d' t0 E0. pose proof (proj1 (Forall_forall _ _) IH s' Hs') as IH'. apply IH' with (3 := E0).
      * exact (proj1 (Forall_forall _ _) Wss s' Hs'). * exact (ones_flat _ _ Ss s' Hs').
Qed.

(** Descriptions. *)
Lemma split_lines (d : bytes) : exists ls, unlines ls = d ++ [LF] /\ Forall one_line ls.
Proof.
  induction d as [|c d (ls & E & H)].
  - exists [[]]. split; [reflexivity|constructor; [apply one_nil|constructor]].
  - destruct (Ascii.eqb_spec c LF) as [->|Hc].
    + exists ([] :: ls). split; [rewrite unlines_cons, E; reflexivity|constructor; [apply one_nil|exact H]].
    + destruct ls as [|l ls]; [destruct d; discriminate|]. exists ((c :: l) :: ls). split.
      * rewrite unlines_cons in E |- *. cbn [app]. rewrite E. reflexivity.
      * constructor; [|exact (Forall_inv_tail H)]. intros [F|F]; [exact (Hc F)|exact (Forall_inv H F)].
Qed.
Lemma description_lines d t : dumpDescription d = Some t -> exists bl, block d bl /\ t = unlines bl.
Proof.
  unfold dumpDescription. destruct d as [|c d]; cbn [nonnil wwhen]; intros E.
  - injection E as <-. exists []. split; reflexivity.
  - destruct (split_lines (c :: d)) as (ls & El & H). exists (B """""""" :: ls ++ [B """"""""]). split; [exists ls; auto|].
    rewrite unlines_cons, unlines_app, El, unlines_cons. injection E as <-. cbn [unlines flat_map]. rewrite <- !app_assoc. reflexivity.
Qed.

(** Lists in braces. *)
Definition item (d n t : bytes) : Prop := exists bl l, t = unlines bl ++ l /\ block d bl /\ begins (pad 1 ++ n) l /\ one_line l.
Lemma items_lines {A} (f : A -> W) (nm : A -> bytes * bytes) l :
  (forall x t, In x l -> f x = Some t -> item (fst (nm x)) (snd (nm x)) t) ->
  forall t, wfor (fun _ x => f x +++ wlf) l = Some t -> exists ls, items (map nm l) ls /\ t = unlines ls.
Proof.
  intros Hf. apply (wfor_lines f (fun x ls => exists bl l, ls = bl ++ [l] /\ block (fst (nm x)) bl /\ begins (pad 1 ++ snd (nm x)) l /\ one_line l) (fun l ls => items (map nm l) ls)).
  - intros x t Hx E. destruct (Hf x t Hx E) as (bl & l' & -> & H). exists (bl ++ [l']). split; [exists bl, l'; split; [reflexivity|exact H]|].
    rewrite unlines_app, <- app_assoc. f_equal. unfold unlines. cbn [flat_map]. rewrite app_nil_r. reflexivity.
  - constructor.
  - intros x xs ls ls' (bl & l' & -> & H1 & H2 & H3) H. cbn [map]. rewrite <- app_assoc. rewrite (surjective_pairing (nm x)). constructor; assumption.
Qed.
Lemma braces_lines {A} (hd : W) (f : A -> W) (nm : A -> bytes * bytes) (w : bytes) (l : list A) t :
  line hd -> starts w hd ->
  (forall x t, In x l -> f x = Some t -> item (fst (nm x)) (snd (nm x)) t) ->
  hd +++ wwhen (nonnil l) (ws " " +++ ws "{" +++ wlf +++ wfor (fun _ x => f x +++ wlf) l +++ ws "}") = Some t ->
  exists h ls, one_line h /\ begins w h /\ braces h (map nm l) ls /\ t ++ [LF] = unlines ls.
Proof.
  intros Hl Hs Hf E. apply wseq_inv in E as (h & u & Eh & E & ->).
  destruct l as [|x l].
  - cbn [nonnil wwhen] in E. injection E as <-. exists h, [h]. split; [auto|]. split; [auto|]. split; [reflexivity|].
    unfold unlines. cbn [flat_map]. rewrite !app_nil_r. reflexivity.
  - cbn [nonnil wwhen] in E. apply wseq_inv in E as (a & b & Ea & E & ->). injection Ea as <-. apply wseq_inv in E as (a & c & Ea & E & ->). injection Ea as <-.
    apply wseq_inv in E as (a & e & Ea & E & ->). injection Ea as <-. apply wseq_inv in E as (a & g & Ea & E & ->). injection E as <-.
    destruct (items_lines f nm (x :: l) Hf a Ea) as (ls & Hi & ->).
    exists h, ((h ++ B " {") :: ls ++ [B "}"]). split; [auto|]. split; [auto|]. split; [exists ls; split; [reflexivity|exact Hi]|].
    rewrite unlines_cons, unlines_app, unlines_cons. cbn [unlines flat_map]. change (B " {") with (B " " ++ B "{"). rewrite <- !app_assoc. reflexivity.
Qed.

(** Lists with bars. *)
Lemma bars_text names j : names <> [] -> joinW (wr (LF :: B "  | ")) (map wr names) = Some j ->
  LF :: B "  | " ++ j ++ [LF] = LF :: unlines (map (fun n => pad 1 ++ B "| " ++ n) names).
Proof.
  revert j. induction names as [|n names IH]; intros j Hn E; [congruence|]. destruct names as [|m names].
  - injection E as <-. unfold unlines. cbn [map flat_map]. rewrite app_nil_r, <- !app_assoc. reflexivity.
  - cbn [map joinW] in E. apply wseq_inv in E as (a & b & Ea & E & ->). injection Ea as <-. apply wseq_inv in E as (a & c & Ea & E & ->). injection Ea as <-.
    specialize (IH c ltac:(discriminate) E). cbn [map]. rewrite unlines_cons. f_equal. rewrite <- !app_assoc.
    transitivity (B "  | " ++ n ++ (LF :: unlines (map (fun n : bytes => pad 1 ++ B "| " ++ n) (m :: names)))); [|reflexivity].
    apply (f_equal (app (B "  | "))). apply (f_equal (app n)). exact IH.
Qed.
Lemma bars_lines hd w names t : line hd -> starts w hd -> ones names ->
  hd +++ dumpSeparated (B " | ") (LF :: B " " ++ B " | ") names = Some t ->
  exists h ls, one_line h /\ begins w h /\ bars names h ls /\ t ++ [LF] = unlines ls.
Proof.
  intros Hl Hs Hn E. unfold dumpSeparated in E. destruct (Nat.ltb (List.length names) 3) eqn:L.
  - assert (Hl' : line (hd +++ ws " " +++ wfor (fun i n => wr n +++ wwhen (Nat.ltb i (List.length names - 1)) (wr (B " | "))) names)).
    { apply line_seq; [exact Hl|]. apply line_seq; [wsl|]. apply line_for. intros i n Hi. apply line_seq; [|apply line_when; wsl].
      apply line_wr. rewrite Forall_forall in Hn. apply Hn, Hi. }
    exists t, [t]. split; [exact (Hl' t E)|]. split; [exact (starts_seq w _ _ Hs t E)|]. split; [split; [exact Hn|rewrite L; reflexivity]|].
    unfold unlines. cbn [flat_map]. rewrite !app_nil_r. reflexivity.
  - pose proof L as L0. apply Nat.ltb_ge in L. apply wseq_inv in E as (h & u & Eh & E & ->). apply wseq_inv in E as (a & j & Ea & E & ->). injection Ea as <-.
    rewrite (wfor_after wr) in E. exists h. eexists. split; [auto|]. split; [auto|]. split.
    + split; [exact Hn|]. rewrite L0. reflexivity.
    + rewrite unlines_cons, <- app_assoc. f_equal. change (LF :: B " " ++ B " | ") with (LF :: B "  | ") in E |- *.
      rewrite <- app_assoc. cbn [app]. apply bars_text; [|exact E]. intros ->. cbn in L. lia.
Qed.

(** Type system definitions. *)
Lemma line_default v : wf_default ident fl v -> ones (default_strings v) ->
  line (match v with Some d => ws " = " +++ dumpValue fg 0 d | None => wskip end).
Proof. destruct v as [v|]; intros Hw Hs; [|apply line_skip]. apply line_seq; [wsl|]. apply line_value; [apply Hw; reflexivity|exact Hs]. Qed.
Lemma input_rest p i t : wf_input ident fl p i -> ones (input_strings i) -> i_desc i = [] -> dumpInputValueDefinition fg i = Some t ->
  exists r, t = i_name i ++ r /\ one_line r.
Proof.
  intros (Wn & Wt & Wv & Wd) Hs Hd E. apply ones_app in Hs as [Sv Sd]. unfold dumpInputValueDefinition in E. rewrite Hd in E.
  change (dumpDescription []) with wskip in E. rewrite wseq_skip_l in E. apply wseq_inv in E as (a & r & Ea & E & ->). injection Ea as <-.
  exists r. split; [reflexivity|]. revert E. apply line_seq; [wsl|]. apply line_seq; [apply line_wr, named_one, Wt|]. apply line_seq; [apply line_when; wsl|].
  apply line_seq; [apply line_default; assumption|eapply line_dirs; eassumption].
Qed.
Lemma line_input p i : wf_input ident fl p i -> ones (input_strings i) -> i_desc i = [] -> line (dumpInputValueDefinition fg i).
Proof.
  intros Hw Hs Hd t E. destruct (input_rest p i t Hw Hs Hd E) as (r & -> & Hr). apply one_app; [|exact Hr]. apply Hid, Hw.
Qed.
Lemma line_argdefs p l : Forall (wf_input ident fl p) l -> ones (flat_map input_strings l) -> Forall (eq []) (map i_desc l) ->
  line (wwhen (nonnil l) (dumpArgumentsDefinition fg l)).
Proof.
  intros Hw Hs Hd. apply line_when. unfold dumpArgumentsDefinition. apply line_seq; [wsl|]. apply line_seq; [|wsl]. apply line_for. intros i x Hx.
  apply line_seq; [apply line_when; wsl|]. apply (line_input p).
  - exact (proj1 (Forall_forall _ _) Hw x Hx). - exact (ones_flat _ _ Hs x Hx).
  - symmetry. apply (proj1 (Forall_forall _ _) Hd). apply in_map, Hx.
Qed.
Lemma field_item f t : wf_field ident fl f -> ones (field_strings f) -> Forall (eq []) (map i_desc (fd_args f)) -> dumpFieldDefinition fg f = Some t ->
  item (fd_desc f) (fd_name f) t.
Proof.
  intros (Wn & Wa & Wt & Wd) Hs Hd E. apply ones_app in Hs as [Sa Sd]. unfold dumpFieldDefinition in E.
  apply wseq_inv in E as (dt & u & Ed & E & ->). destruct (description_lines _ _ Ed) as (bl & Hb & ->). exists bl, u. split; [reflexivity|]. split; [exact Hb|].
  apply wseq_inv in E as (a & b & Ea & E & ->). injection Ea as <-.
  apply wseq_inv in E as (a & r & Ea & E & ->). injection Ea as <-. split; [exists r; rewrite <- app_assoc; reflexivity|].
  apply one_app; [exact (one_pad 1)|]. apply one_app; [auto|]. revert E.
  apply line_seq; [eapply line_argdefs; eassumption|]. apply line_seq; [wsl|]. apply line_seq; [apply line_wr, named_one, Wt|].
  apply line_seq; [apply line_when; wsl|eapply line_dirs; eassumption].
Qed.
Lemma enum_item e t : wf_enum ident fl e -> ones (dirs_strings (ev_dirs e)) -> dumpEnumValueDefinition fg e = Some t ->
  item (ev_desc e) (ev_name e) t.
Proof.
  intros (Wn & Wd) Hs E. unfold dumpEnumValueDefinition in E.
  apply wseq_inv in E as (dt & u & Ed & E & ->). destruct (description_lines _ _ Ed) as (bl & Hb & ->). exists bl, u. split; [reflexivity|]. split; [exact Hb|].
  apply wseq_inv in E as (a & b & Ea & E & ->). injection Ea as <-. apply wseq_inv in E as (a & r & Ea & E & ->). injection Ea as <-.
  split; [exists r; rewrite <- app_assoc; reflexivity|]. apply one_app; [exact (one_pad 1)|]. apply one_app; [apply Hid, Wn|]. revert E. eapply line_dirs; eassumption.
Qed.
Lemma starts_head w a b : starts w b -> a = wr [] -> starts w (a +++ b).
Proof. intros H ->. exact (starts_more [] w b H). Qed.

Lemma implementing_lines {A} k (dirs : W) (f : A -> W) (nm : A -> bytes * bytes) (l : list A) d : line dirs ->
  (forall x t, In x l -> f x = Some t -> item (fst (nm x)) (snd (nm x)) t) ->
  dirs +++ wwhen (nonnil l) (ws " " +++ ws "{" +++ wlf +++ wfor (fun _ x => f x +++ wlf) l +++ ws "}") = Some d ->
  forall names, ones names -> names <> [] -> forall j, joinW (wr (LF :: pad k ++ B "& ")) (map wr names) = Some j ->
  exists ls, implementing k names (map nm l) ls /\ pad k ++ B "& " ++ j ++ d ++ [LF] = unlines ls.
Proof.
  intros Hl Hf Ed. induction names as [|n names IH]; intros Hn Hne j E; [congruence|]. pose proof (Forall_inv Hn) as H1. pose proof (Forall_inv_tail Hn) as H2.
  destruct names as [|m names].
  - injection E as <-.
    assert (E2 : (wr (pad k ++ B "& " ++ n) +++ dirs) +++ wwhen (nonnil l) (ws " " +++ ws "{" +++ wlf +++ wfor (fun _ x => f x +++ wlf) l +++ ws "}") = Some ((pad k ++ B "& " ++ n) ++ d)).
    { rewrite wseq_assoc, Ed. reflexivity. }
    apply (braces_lines _ f nm (pad k ++ B "& " ++ n)) in E2; [| |apply starts_seq, starts_wr|exact Hf].
    + destruct E2 as (h & ls & O & Bg & Br & Et). exists ls. split; [exists h; auto|]. rewrite <- Et, <- !app_assoc. reflexivity.
    + apply line_seq; [|exact Hl]. apply line_wr. apply one_app; [apply one_pad|]. apply one_app; [apply one_check; reflexivity|exact H1].
  - cbn [map joinW] in E. apply wseq_inv in E as (a & b & Ea & E & ->). injection Ea as <-. apply wseq_inv in E as (a & c & Ea & E & ->). injection Ea as <-.
    destruct (IH H2 ltac:(discriminate) c E) as (ls & Hls & Et). exists ((pad k ++ B "& " ++ n) :: ls). split.
    + exists ls. auto.
    + rewrite unlines_cons, <- Et. rewrite <- !app_assoc. cbn [app]. rewrite <- !app_assoc. reflexivity.
Qed.
Lemma type_lines p t x : one_line p -> wf_typedef ident fl t -> ones (type_strings t) -> Forall (eq []) (type_descriptions t) ->
  wr p +++ match t_kind t with
      | KScalar => ws "scalar " +++ wr (t_name t) +++ dumpOptDirectives fg 0 (t_dirs t)
      | KObject =>
          ws "type " +++ wr (t_name t)
          +++ wwhen (nonnil (t_impl t)) (ws " " +++ dumpImplementsInterfaces (t_impl t) (nonnil (t_fields t)))
          +++ dumpOptDirectives fg 0 (t_dirs t)
          +++ wwhen (nonnil (t_fields t)) (ws " " +++ dumpFieldsDefinition fg (t_fields t))
      | KInterface =>
          ws "interface " +++ wr (t_name t) +++ dumpOptDirectives fg 0 (t_dirs t)
          +++ wwhen (nonnil (t_fields t)) (ws " " +++ dumpFieldsDefinition fg (t_fields t))
      | KUnion =>
          ws "union " +++ wr (t_name t) +++ dumpOptDirectives fg 0 (t_dirs t)
          +++ wwhen (nonnil (t_members t)) (ws " " +++ dumpUnionMemberTypes (t_members t))
      | KEnum =>
          ws "enum " +++ wr (t_name t) +++ dumpOptDirectives fg 0 (t_dirs t)
          +++ wwhen (nonnil (t_values t)) (ws " " +++ dumpEnumValuesDefinition fg (t_values t))
      | KInputObject =>
          ws "input " +++ wr (t_name t) +++ dumpOptDirectives fg 0 (t_dirs t)
          +++ wwhen (nonnil (t_inputs t)) (ws " " +++ dumpInputFieldsDefinition fg (t_inputs t))
      end = Some x ->
  exists h ls, one_line h /\ begins (p ++ kind_word (t_kind t) ++ t_name t) h /\ type_laid t h ls /\ x ++ [LF] = unlines ls.
Proof.
  intros Hp (Wn & Wd & Wi & Wf & Wm & Wv & Win & _) Hs Hds E. unfold type_strings in Hs.
  apply ones_app in Hs as [Sd Hs]. apply ones_app in Hs as [Sf Hs]. apply ones_app in Hs as [Sv Sin].
  unfold type_descriptions in Hds. apply Forall_app in Hds as [Df Din].
  assert (Ldirs : line (dumpOptDirectives fg 0 (t_dirs t))) by (eapply line_dirs; eassumption).
  assert (Lname : line (wr (t_name t))) by (apply line_wr; auto).
  assert (FI : forall f u, In f (t_fields t) -> dumpFieldDefinition fg f = Some u -> item (fd_desc f) (fd_name f) u).
  { intros f u Hf. apply field_item; [exact (proj1 (Forall_forall _ _) Wf f Hf)|exact (ones_flat _ _ Sf f Hf)|].
    apply Forall_forall. intros y Hy. apply (proj1 (Forall_forall _ _) Df), in_flat_map. eauto. }
  assert (VI : forall f u, In f (t_values t) -> dumpEnumValueDefinition fg f = Some u -> item (ev_desc f) (ev_name f) u).
  { intros f u Hf. apply enum_item; [exact (proj1 (Forall_forall _ _) Wv f Hf)|exact (ones_flat _ _ Sv f Hf)]. }
  assert (II : forall f u, In f (t_inputs t) -> wr indentation +++ dumpInputValueDefinition fg f = Some u -> item [] (i_name f) u).
  { intros f u Hf Eu. apply wseq_inv in Eu as (a & b & Ea & Eu & ->). injection Ea as <-.
    destruct (input_rest LInputFieldDefinition f b) as (r & -> & Hr); [exact (proj1 (Forall_forall _ _) Win f Hf)|exact (ones_flat _ _ Sin f Hf)| |exact Eu|].
    - symmetry. apply (proj1 (Forall_forall _ _) Din), in_map, Hf.
    - exists [], (pad 1 ++ i_name f ++ r). split; [reflexivity|]. split; [reflexivity|]. split; [exists r; rewrite <- app_assoc; reflexivity|].
      apply one_app; [exact (one_pad 1)|apply one_app; [|exact Hr]]. apply Hid. exact (proj1 (proj1 (Forall_forall _ _) Win f Hf)). }
  unfold type_laid, item_names. destruct (t_kind t); cbn [kind_word].
  - (* scalar *)
    exists x, [x]. split; [revert E; apply line_seq; [apply line_wr, Hp|]; apply line_seq; [wsl|]; apply line_seq; assumption|].
    split; [|split; [reflexivity|unfold unlines; cbn [flat_map]; rewrite app_nil_r; reflexivity]].
    revert E. apply starts_more. apply (starts_more (B "scalar ")), starts_seq, starts_wr.
  - (* object *)
    assert (Wj : ones (interface_names t)). { apply Forall_map. eapply Forall_impl; [|exact Wi]. exact named_one. }
    unfold object_laid. replace (List.length (interface_names t)) with (List.length (t_impl t)) by (symmetry; apply map_length).
    destruct (Nat.ltb (List.length (t_impl t)) 3) eqn:L.
    + match type of E with ?a +++ ?b +++ ?c +++ ?e +++ ?g +++ ?rest = _ =>
        assert (E2 : (a +++ b +++ c +++ e +++ g) +++ rest = Some x) by (rewrite !wseq_assoc; exact E) end.
      apply (braces_lines _ (dumpFieldDefinition fg) (fun f => (fd_desc f, fd_name f)) (p ++ B "type " ++ t_name t)) in E2; [exact E2| | |exact FI].
      * apply line_seq; [apply line_wr, Hp|]. apply line_seq; [wsl|]. apply line_seq; [exact Lname|]. apply line_seq; [|exact Ldirs].
        apply line_when. apply line_seq; [wsl|]. unfold dumpImplementsInterfaces, dumpSeparated. rewrite map_length, L.
        apply line_seq; [wsl|]. apply line_seq; [wsl|]. apply line_for. intros i n Hn. apply line_seq; [|apply line_when; wsl].
        apply line_wr. exact (proj1 (Forall_forall _ _) Wj n Hn).
      * apply starts_more. apply (starts_more (B "type ")), starts_seq, starts_wr.
    + assert (Hne : interface_names t <> []). { unfold interface_names. destruct (t_impl t); [discriminate L|discriminate]. }
      assert (Hn : nonnil (t_impl t) = true) by (destruct (t_impl t); [discriminate L|reflexivity]). rewrite Hn in E. cbn [wwhen] in E.
      unfold dumpImplementsInterfaces, dumpSeparated in E. rewrite map_length, L in E. rewrite <- (map_length named_type (t_impl t)) in E.
      assert (Hi : LF :: B " " ++ (if nonnil (t_fields t) then indentation else []) ++ B " & " =
                   LF :: pad (match map (fun f => (fd_desc f, fd_name f)) (t_fields t) with [] => 1 | _ => 2 end) ++ B "& ") by (destruct (t_fields t); reflexivity).
      rewrite Hi in E. clear Hi. set (k := match map (fun f => (fd_desc f, fd_name f)) (t_fields t) with [] => 1 | _ => 2 end) in *.
      apply wseq_inv in E as (u1 & u & E1 & E & ->). injection E1 as <-. apply wseq_inv in E as (u1 & u' & E1 & E & ->). injection E1 as <-.
      apply wseq_inv in E as (u1 & u & E1 & E & ->). injection E1 as <-. apply wseq_inv in E as (u1 & d & E1 & E & ->).
      apply wseq_inv in E1 as (u2 & u & E2 & E1 & ->). injection E2 as <-. apply wseq_inv in E1 as (u2 & u' & E2 & E1 & ->). injection E2 as <-.
      apply wseq_inv in E1 as (u2 & j & E2 & E1 & ->). injection E2 as <-. rewrite (wfor_after wr) in E1. change (map named_type (t_impl t)) with (interface_names t) in E1.
      destruct (implementing_lines k (dumpOptDirectives fg 0 (t_dirs t)) (dumpFieldDefinition fg) (fun f => (fd_desc f, fd_name f)) (t_fields t) d Ldirs FI E (interface_names t) Wj Hne j E1) as (ls & Hls & Ed).
      exists (p ++ B "type " ++ t_name t ++ B " implements"), ((p ++ B "type " ++ t_name t ++ B " implements") :: ls).
      split; [|split; [|split]].
      * apply one_app; [exact Hp|]. apply one_app; [apply one_check; reflexivity|]. apply one_app; [apply Hid, Wn|apply one_check; reflexivity].
      * exists (B " implements"). rewrite <- !app_assoc. reflexivity.
      * exists (p ++ B "type " ++ t_name t), ls. split; [rewrite <- !app_assoc; reflexivity|]. split; [reflexivity|exact Hls].
      * rewrite unlines_cons, <- Ed. change (B " implements") with (B " " ++ B "implements"). rewrite <- !app_assoc. cbn [app]. rewrite <- !app_assoc. reflexivity.
  - (* interface *)
    match type of E with ?a +++ ?b +++ ?c +++ ?e +++ ?rest = _ =>
      assert (E2 : (a +++ b +++ c +++ e) +++ rest = Some x) by (rewrite !wseq_assoc; exact E) end.
    apply (braces_lines _ (dumpFieldDefinition fg) (fun f => (fd_desc f, fd_name f)) (p ++ B "interface " ++ t_name t)) in E2; [exact E2| | |exact FI].
    + apply line_seq; [apply line_wr, Hp|]. apply line_seq; [wsl|]. apply line_seq; assumption.
    + apply starts_more. apply (starts_more (B "interface ")), starts_seq, starts_wr.
  - (* union *)
    destruct (t_members t) as [|m ms] eqn:Em.
    + cbn [nonnil wwhen] in E. exists x, [x]. split; [revert E; apply line_seq; [apply line_wr, Hp|]; apply line_seq; [wsl|]; apply line_seq; [assumption|]; apply line_seq; [assumption|apply line_skip]|].
      split; [|split; [split; [constructor|reflexivity]|unfold unlines; cbn [flat_map]; rewrite app_nil_r; reflexivity]].
      revert E. apply starts_more. apply (starts_more (B "union ")), starts_seq, starts_wr.
    + cbn [nonnil wwhen] in E. unfold dumpUnionMemberTypes in E. rewrite <- Em in E, Wm.
      match type of E with ?a +++ ?b +++ ?c +++ ?e +++ ?f +++ ?g +++ ?rest = _ =>
        assert (E2 : (a +++ b +++ c +++ e +++ f +++ g) +++ rest = Some x) by (rewrite !wseq_assoc; exact E) end.
      apply (bars_lines _ (p ++ B "union " ++ t_name t)) in E2; [rewrite <- Em; exact E2| | |].
      * apply line_seq; [apply line_wr, Hp|]. apply line_seq; [wsl|]. apply line_seq; [exact Lname|]. apply line_seq; [exact Ldirs|]. apply line_seq; wsl.
      * apply starts_more. apply (starts_more (B "union ")), starts_seq, starts_wr.
      * apply Forall_map. eapply Forall_impl; [|exact Wm]. exact named_one.
  - (* enum *)
    match type of E with ?a +++ ?b +++ ?c +++ ?e +++ ?rest = _ =>
      assert (E2 : (a +++ b +++ c +++ e) +++ rest = Some x) by (rewrite !wseq_assoc; exact E) end.
    apply (braces_lines _ (dumpEnumValueDefinition fg) (fun e => (ev_desc e, ev_name e)) (p ++ B "enum " ++ t_name t)) in E2; [exact E2| | |exact VI].
    + apply line_seq; [apply line_wr, Hp|]. apply line_seq; [wsl|]. apply line_seq; assumption.
    + apply starts_more. apply (starts_more (B "enum ")), starts_seq, starts_wr.
  - (* input *)
    match type of E with ?a +++ ?b +++ ?c +++ ?e +++ ?rest = _ =>
      assert (E2 : (a +++ b +++ c +++ e) +++ rest = Some x) by (rewrite !wseq_assoc; exact E) end.
    unfold dumpInputFieldsDefinition in E2.
    replace (wfor (fun _ x => wr indentation +++ dumpInputValueDefinition fg x +++ wlf) (t_inputs t))
      with (wfor (fun _ x => (wr indentation +++ dumpInputValueDefinition fg x) +++ wlf) (t_inputs t)) in E2
      by (apply wfori_ext; intros; apply wseq_assoc).
    apply (braces_lines _ (fun x => wr indentation +++ dumpInputValueDefinition fg x) (fun i => ([], i_name i)) (p ++ B "input " ++ t_name t)) in E2; [exact E2| | |exact II].
    + apply line_seq; [apply line_wr, Hp|]. apply line_seq; [wsl|]. apply line_seq; assumption.
    + apply starts_more. apply (starts_more (B "input ")), starts_seq, starts_wr.
Qed.
Lemma body_type ext t x : wf_typedef ident fl t -> ones (type_strings t) -> Forall (eq []) (type_descriptions t) ->
  dumpTypeBody fg ext t = Some x ->
  exists bl h ls, block (if ext then [] else t_desc t) bl /\ one_line h /\ begins ((if ext then B "extend " else []) ++ kind_word (t_kind t) ++ t_name t) h /\
    type_laid t h ls /\ x ++ [LF] = unlines (bl ++ ls).
Proof.
  intros Hw Hs Hd E. unfold dumpTypeBody in E. apply wseq_inv in E as (dt & u & Ed & E & ->).
  assert (Hb : exists bl, block (if ext then [] else t_desc t) bl /\ dt = unlines bl).
  { destruct ext; cbn [negb wwhen] in Ed; [injection Ed as <-; exists []; split; reflexivity|exact (description_lines _ _ Ed)]. }
  destruct Hb as (bl & Hb & ->).
  assert (G : exists h ls, one_line h /\ begins ((if ext then B "extend " else []) ++ kind_word (t_kind t) ++ t_name t) h /\ type_laid t h ls /\ u ++ [LF] = unlines ls).
  { destruct ext; cbn [wwhen] in E; apply type_lines in E; try assumption; [apply one_check; reflexivity|apply one_nil]. }
  destruct G as (h & ls & H1 & H2 & H3 & H4). exists bl, h, ls. rewrite unlines_app, <- H4, <- app_assoc. auto.
Qed.
Lemma op_item o t : wf_named ident (ot_type o) -> dumpOperationTypeDefinition o = Some t ->  item [] (op_word (ot_op o)) t.
Proof.
  intros Hw E. unfold dumpOperationTypeDefinition in E. apply wseq_inv in E as (a & b & Ea & E & ->). unfold indent in Ea. rewrite pad_repeats in Ea. injection Ea as <-.
  apply wseq_inv in E as (a & r & Ea & E & ->). assert (Eo : a = op_word (ot_op o)) by (destruct (ot_op o); injection Ea as <-; reflexivity). rewrite Eo.
  exists [], (pad 1 ++ op_word (ot_op o) ++ r). split; [reflexivity|]. split; [reflexivity|]. split.
  - exists r. rewrite <- app_assoc. reflexivity.
  - apply one_app; [exact (one_pad 1)|]. apply one_app; [destruct (ot_op o); apply one_check; reflexivity|]. revert E. apply line_seq; [wsl|]. apply line_type, wf_named_type, Hw.
Qed.
Lemma schema_lines w s hd t : starts w hd -> line hd -> wf_schema ident fl s ->
  hd +++ wwhen (nonnil (s_ops s)) (ws " {" +++ wlf +++ wfor (fun _ o => dumpOperationTypeDefinition o +++ wlf) (s_ops s) +++ ws "}") = Some t ->
  exists h ls, one_line h /\ begins w h /\ braces h (map (fun o => ([], op_word (ot_op o))) (s_ops s)) ls /\ t ++ [LF] = unlines ls.
Proof.
  intros Hst Hl [_ Ho] E.
  replace (ws " {" +++ wlf +++ wfor (fun _ o => dumpOperationTypeDefinition o +++ wlf) (s_ops s) +++ ws "}")
    with (ws " " +++ ws "{" +++ wlf +++ wfor (fun _ o => dumpOperationTypeDefinition o +++ wlf) (s_ops s) +++ ws "}") in E
    by (rewrite <- (wseq_assoc (ws " ")); reflexivity).
  apply (braces_lines hd dumpOperationTypeDefinition (fun o => ([], op_word (ot_op o))) w) in E; try assumption.
  intros o u Hu. apply op_item. exact (proj1 (Forall_forall _ _) Ho o Hu).
Qed.
Lemma locations_one l : ones (locations_of l).
Proof.
  apply Forall_forall. intros n Hn. unfold locations_of in Hn. apply in_flat_map in Hn as (i & _ & Hn). cbv zeta in Hn.
  destruct (N.eqb _ 0); [destruct Hn|]. destruct Hn as [<-|[]]. unfold location_name.
  destruct (find _ _) as [n|] eqn:F; [|apply one_nil]. apply find_some in F as [F _].
  assert (A : forallb (forallb (fun b => negb (Ascii.eqb b LF))) location_names = true) by reflexivity.
  intros H. rewrite forallb_forall in A. specialize (A n F). rewrite forallb_forall in A. specialize (A _ H). discriminate.
Qed.
Lemma locations_places l : (l < 2 ^ 19)%N -> locations_of l = places l.
Proof.
  intros H. unfold locations_of, places. change (List.length location_names) with 19. change (seq 0 20) with (seq 0 19 ++ [19]). rewrite flat_map_app. cbv zeta.
  match goal with |- ?a ++ ?b = _ => assert (Z : b = []) end.
  { cbn [flat_map]. rewrite DumpGrammar.land_bit. replace (N.testbit l (N.of_nat 19)) with false; [reflexivity|]. symmetry.
    destruct (N.eq_dec l 0) as [->|Hz]; [apply N.bits_0|]. apply N.bits_above_log2. apply N.log2_lt_pow2; [lia|exact H]. }
  rewrite Z, app_nil_r. clear Z H.
  assert (G : forall ps, Forall (fun p => nth_error location_names (fst p) = Some (snd p)) ps ->
    flat_map (fun i => if N.eqb (N.land l (N.shiftl 1 (N.of_nat i))) 0 then [] else [location_name (N.land l (N.shiftl 1 (N.of_nat i)))]) (map fst ps)
    = map snd (filter (fun p => N.testbit l (N.of_nat (fst p))) ps)).
  { induction 1 as [|[i n] ps Hi _ IH]; [reflexivity|]. cbn [map flat_map filter fst snd] in *. rewrite IH, DumpGrammar.land_bit.
    destruct (N.testbit l (N.of_nat i)); [|reflexivity].
    destruct (N.eqb_spec (N.shiftl 1 (N.of_nat i)) 0) as [E0|_]; [exfalso; eapply DumpGrammar.shift_nonzero, E0|].
    rewrite (DumpGrammar.location_name_bit fg (fun _ => true) i n Hi). reflexivity. }
  rewrite <- (G (combine (seq 0 19) location_names)); [reflexivity|]. repeat (apply Forall_cons; [reflexivity|]). apply Forall_nil.
Qed.
Lemma body_dir d t : wf_dirdef ident fl d -> ones (flat_map input_strings (dd_args d)) -> Forall (eq []) (map i_desc (dd_args d)) ->
  dumpDirectiveDefinition fg d = Some t ->
  exists bl h ls, block (dd_desc d) bl /\ one_line h /\ begins (B "directive @" ++ dd_name d) h /\ bars (places (dd_locs d)) h ls /\ t ++ [LF] = unlines (bl ++ ls).
Proof.
  intros (Wn & Wa & Wl) Hs Hd E. unfold dumpDirectiveDefinition in E. apply wseq_inv in E as (dt & u & Ed & E & ->).
  destruct (description_lines _ _ Ed) as (bl & Hb & ->). unfold dumpDirectiveLocations in E.
  rewrite <- (locations_places _ (proj2 Wl)).
  match type of E with ?a +++ ?b +++ ?c +++ ?e +++ ?rest = _ => assert (E2 : (a +++ b +++ c +++ e) +++ rest = Some u) by (rewrite !wseq_assoc; exact E) end.
  apply (bars_lines _ (B "directive @" ++ dd_name d)) in E2; [| | |apply locations_one].
  - destruct E2 as (h & ls & H1 & H2 & H3 & H4). exists bl, h, ls. rewrite unlines_app, <- H4, <- app_assoc. auto.
  - apply line_seq; [wsl|]. apply line_seq; [apply line_wr; auto|]. apply line_seq; [eapply line_argdefs; eassumption|wsl].
  - apply starts_more, starts_seq, starts_wr.
Qed.
Lemma sels_block ss t : Forall (wf_selection ident fl) ss -> ones (flat_map sel_strings ss) -> dumpSelections fg 0 ss = Some t ->
  exists ls, all_laid 1 ss ls /\ t ++ [LF] = B "{" ++ LF :: unlines (ls ++ [B "}"]).
Proof.
  intros Hw Hs E. unfold dumpSelections in E. apply wseq_inv in E as (a & b & Ea & E & ->). injection Ea as <-.
  apply wseq_inv in E as (a & b' & Ea & E & ->). injection Ea as <-. apply wseq_inv in E as (a & b & Ea & E & ->).
  assert (H : exists ls, all_laid 1 ss ls /\ a = unlines ls).
  { refine (sels_lines 0 ss _ a Ea). intros s u Hu. apply sel_lines; [exact (proj1 (Forall_forall _ _) Hw s Hu)|exact (ones_flat _ _ Hs s Hu)]. }
  destruct H as (ls & Hl & ->). unfold indent in E. cbn [repeats] in E. apply wseq_inv in E as (pd & cl & Ep & Ecl & ->). injection Ep as <-. injection Ecl as <-.
  exists ls. split; [exact Hl|]. rewrite unlines_app, unlines_cons. cbn [unlines flat_map app]. rewrite <- !app_assoc. reflexivity.
Qed.
Lemma line_variables l : Forall (wf_variable ident fl) l -> ones (flat_map (fun v => default_strings (v_default v)) l) -> line (wwhen (nonnil l) (dumpVariableDefinitions fg l)).
Proof.
  intros Hw Hs. apply line_when. unfold dumpVariableDefinitions. apply line_seq; [wsl|]. apply line_seq; [|wsl]. apply line_for. intros i v Hv.
  apply line_seq; [|apply line_when; wsl]. destruct (proj1 (Forall_forall _ _) Hw v Hv) as (Wn & Wt & Wd). unfold dumpVariableDefinition.
  apply line_seq; [wsl|]. apply line_seq; [apply line_wr; auto|]. apply line_seq; [wsl|]. apply line_seq; [apply line_type, Wt|].
  apply line_default; [exact Wd|exact (ones_flat _ _ Hs v Hv)].
Qed.
Lemma body_lines lone defs b t : lone = Nat.eqb defs 1 -> wf_body ident fl b -> simple_body b -> dumpDefinition fg defs b = Some t ->
  exists ls, def_laid lone b ls /\ t ++ [LF] = unlines ls.
Proof.
  intros -> Hw (Hs & Hd) E.
  assert (Plain : description b = [] -> (exists ls, def_lines (Nat.eqb defs 1) b ls /\ t ++ [LF] = unlines ls) -> exists ls, def_laid (Nat.eqb defs 1) b ls /\ t ++ [LF] = unlines ls).
  { intros Hn (ls & H & Et). exists ls. split; [|exact Et]. exists [], ls. rewrite Hn. repeat split; auto. }
  destruct b as [o|f|s|t0|d|s|t0]; cbn [dumpDefinition wf_body body_strings descriptions] in *.
  - (* operation *)
    apply Plain; [reflexivity|]. unfold def_lines.
    destruct Hw as (Wn & Wv & Wd & _ & Wss). apply ones_app in Hs as [Sv Hs]. apply ones_app in Hs as [Sd Ss].
    unfold dumpOperationDefinition in E. cbv zeta in E. set (lone := Nat.eqb defs 1) in *.
    match type of E with ?a +++ ?b +++ ?c +++ ?e +++ ?sp +++ ?rest = _ =>
      assert (E2 : (a +++ b +++ c +++ e) +++ sp +++ rest = Some t) by (rewrite !wseq_assoc; exact E) end. clear E.
    apply wseq_inv in E2 as (h & u & Eh & E & ->). apply wseq_inv in E as (sp & v & Esp & E & ->).
    destruct (sels_block (o_sels o) v Wss Ss E) as (ls & Hl & Ev).
    exists ((h ++ (if lone then B "{" else B " {")) :: ls ++ [B "}"]). split.
    + exists h. split; [|exists ls; split; [reflexivity|split; [exact Hl|]]].
      * revert Eh. apply line_seq; [destruct (o_kind o); [apply line_when| |]; wsl|].
        apply line_seq; [apply line_when, line_wr; destruct Wn as [->|Wn]; [apply one_nil|auto]|].
        apply line_seq; [apply line_variables; assumption|eapply line_dirs; eassumption].
      * revert Eh. 
        assert (G : forall w p n (rest : W), p = ws w -> starts (B w ++ n) (p +++ wwhen (nonnil n) (wr n) +++ rest)).
        { intros w p n rest ->. apply starts_more. apply starts_seq. destruct n as [|c n]; [apply (starts_wr [])|apply starts_wr]. }
        destruct (o_kind o).
        -- destruct lone eqn:El; [destruct (o_name o) as [|c n] eqn:En|].
           ++ apply starts_nil.
           ++ apply (G "query "%string). reflexivity.
           ++ assert (Q : starts (B "query " ++ o_name o) (wwhen (negb false || nonnil (o_name o)) (ws "query ") +++ wwhen (nonnil (o_name o)) (wr (o_name o)) +++
                wwhen (nonnil (o_vars o)) (dumpVariableDefinitions fg (o_vars o)) +++ dumpOptDirectives fg 0 (o_dirs o))) by (apply G; reflexivity).
              destruct (o_name o); apply Q.
        -- apply (G "mutation "%string). reflexivity.
        -- apply (G "subscription "%string). reflexivity.
    + rewrite unlines_cons, <- !app_assoc. rewrite Ev. f_equal. destruct lone; cbn [negb wwhen] in Esp; injection Esp as <-; reflexivity.
  - (* fragment *)
    apply Plain; [reflexivity|]. unfold def_lines.
    destruct Hw as (Wn & Wc & Wd & _ & Wss). apply ones_app in Hs as [Sd Ss]. unfold dumpFragmentDefinition in E.
    match type of E with ?a +++ ?b +++ ?c +++ ?e +++ ?f +++ ?g +++ ?h +++ ?i +++ ?sp +++ ?rest = _ =>
      assert (E2 : (a +++ b +++ c +++ e +++ f +++ g +++ h +++ i) +++ sp +++ rest = Some t) by (rewrite !wseq_assoc; exact E) end. clear E.
    apply wseq_inv in E2 as (h & u & Eh & E & ->). apply wseq_inv in E as (sp & v & Esp & E & ->). injection Esp as <-.
    destruct (sels_block (f_sels f) v Wss Ss E) as (ls & Hl & Ev).
    exists ((h ++ B " {") :: ls ++ [B "}"]). split.
    + exists h. split; [|exists ls; split; [reflexivity|split; [exact Hl|]]].
      * revert Eh. apply line_seq; [wsl|]. apply line_seq; [wsl|]. apply line_seq; [apply line_wr, Hid, Wn|]. apply line_seq; [wsl|]. apply line_seq; [wsl|]. apply line_seq; [wsl|].
        apply line_seq; [apply line_wr, named_one, wf_named_type, Wc|]. eapply line_dirs; eassumption.
      * apply wseq_inv in Eh as (a & b & Ea & Eh & ->). injection Ea as <-. apply wseq_inv in Eh as (a & b' & Ea & Eh & ->). injection Ea as <-.
        apply wseq_inv in Eh as (a & b & Ea & Eh & ->). injection Ea as <-. apply wseq_inv in Eh as (a & b' & Ea & Eh & ->). injection Ea as <-.
        apply wseq_inv in Eh as (a & b & Ea & Eh & ->). injection Ea as <-. apply wseq_inv in Eh as (a & b' & Ea & Eh & ->). injection Ea as <-.
        exists b'. change (B "fragment ") with (B "fragment" ++ B " "). change (B " on ") with (B " " ++ B "on" ++ B " "). rewrite <- !app_assoc. reflexivity.
    + rewrite unlines_cons, <- !app_assoc. rewrite Ev. f_equal.
  - (* schema *)
    apply Plain; [reflexivity|]. unfold def_lines.
    destruct Hw as [Ws Wo]. unfold dumpSchemaDefinition in E. destruct (s_ops s) as [|o os] eqn:Eo; [congruence|]. rewrite <- Eo in E.
    match type of E with ?a +++ ?b +++ ?rest = _ => assert (E2 : (a +++ b) +++ wwhen (nonnil (s_ops s)) rest = Some t) by (rewrite Eo; cbn [nonnil wwhen]; rewrite <- Eo, !wseq_assoc; exact E) end.
    destruct (schema_lines (B "schema") s _ t (starts_seq _ _ _ (starts_wr _)) (line_seq _ _ (line_ws "schema" eq_refl) (line_dirs 0 LSchema _ (proj1 Ws) Hs)) Ws E2)
      as (h & ls & H1 & H2 & H3 & H4). rewrite Eo in H3. exists ls. split; [exists h|]; auto.
  - (* type *)
    destruct (body_type false t0 t Hw Hs Hd E) as (bl & h & ls & H0 & H1 & H2 & H3 & H4). exists (bl ++ ls). split; [|exact H4].
    exists bl, ls. split; [reflexivity|]. split; [exact H0|]. exists h. auto.
  - (* directive *)
    destruct (body_dir d t Hw Hs Hd E) as (bl & h & ls & H0 & H1 & H2 & H3 & H4). exists (bl ++ ls). split; [|exact H4].
    exists bl, ls. split; [reflexivity|]. split; [exact H0|]. exists h. auto.
  - (* schema extension *)
    apply Plain; [reflexivity|]. unfold def_lines.
    destruct Hw as [Ws _]. unfold dumpSchemaExtension in E. rewrite <- wseq_assoc in E.
    destruct (schema_lines (B "extend schema") s _ t (starts_seq _ _ _ (starts_wr _)) (line_seq _ _ (line_ws "extend schema" eq_refl) (line_dirs 0 LSchema _ (proj1 Ws) Hs)) Ws E)
      as (h & ls & H1 & H2 & H3 & H4). exists ls. split; [exists h|]; auto.
  - (* type extension *)
    destruct (body_type true t0 t (proj1 Hw) Hs Hd E) as (bl & h & ls & H0 & H1 & H2 & H3 & H4). exists (bl ++ ls). split; [|exact H4].
    exists bl, ls. split; [reflexivity|]. split; [exact H0|]. exists h. auto.
Qed.

Lemma defs_lines n l : forall i t, i + List.length l = n -> Forall (fun x => wf_body ident fl (def_body x)) l -> Forall (fun x => simple_body (def_body x)) l -> l <> [] ->
  wfori (fun i d => wwhen (negb (Nat.eqb i 0)) wlf +++ dumpDefinition fg n (def_body d) +++ wwhen (Nat.ltb i (n - 1)) wlf) i l = Some t ->
  exists lss, Forall2 (fun x ls => def_laid (Nat.eqb n 1) (def_body x) ls) l lss /\
    t ++ [LF] = (if Nat.eqb i 0 then [] else [LF]) ++ unlines (separated lss).
Proof.
  induction l as [|x l IH]; intros i t Hn Hw Hs Hne E; [congruence|].
  pose proof (Forall_inv Hw) as Wx. pose proof (Forall_inv_tail Hw) as Wl. pose proof (Forall_inv Hs) as Sx. pose proof (Forall_inv_tail Hs) as Sl. cbv beta in Wx, Sx.
  cbn [wfori List.length] in E, Hn.
  apply wseq_inv in E as (a & b & Ea & E & ->). apply wseq_inv in Ea as (p & c & Ep & Ec & ->). apply wseq_inv in Ec as (e & f & Ee & Ef & ->).
  destruct (body_lines (Nat.eqb n 1) n (def_body x) e eq_refl Wx Sx Ee) as (ls & Hl & Et).
  assert (Ep' : p = if Nat.eqb i 0 then [] else [LF]) by (destruct (Nat.eqb i 0); injection Ep as <-; reflexivity). rewrite Ep'. clear Ep Ep'.
  destruct l as [|y l].
  - cbn [wfori] in E. injection E as <-. replace (Nat.ltb i (n - 1)) with false in Ef by (symmetry; apply Nat.ltb_ge; cbn in Hn; lia). injection Ef as <-.
    exists [ls]. split; [constructor; [exact Hl|constructor]|]. cbn [separated]. rewrite <- Et, !app_nil_r, <- app_assoc. reflexivity.
  - replace (Nat.ltb i (n - 1)) with true in Ef by (symmetry; apply Nat.ltb_lt; cbn in Hn; lia). injection Ef as <-.
    destruct (IH (S i) b ltac:(lia) Wl Sl ltac:(discriminate) E) as (lss & Hf & Eb). cbn [Nat.eqb] in Eb.
    exists (ls :: lss). split; [constructor; assumption|]. destruct lss as [|l1 lss]; [inversion Hf|].
    cbn [separated]. rewrite unlines_app, unlines_cons, <- Et. rewrite <- !app_assoc, Eb. reflexivity.
Qed.
End Layout.

(** Every line of a layout is one line. *)
Scheme laid_mut := Minimality for laid Sort Prop with all_laid_mut := Minimality for all_laid Sort Prop.
Lemma all_laid_one n ss ls : all_laid n ss ls -> Forall one_line ls.
Proof.
  apply (all_laid_mut (fun _ _ ls => Forall one_line ls) (fun _ _ ls => Forall one_line ls)).
  - intros m s head _ H _. constructor; [apply one_app; [apply one_pad|exact H]|constructor].
  - intros m s head ls' _ H _ _ IH. constructor; [apply one_app; [apply one_pad|apply one_app; [exact H|apply one_check; reflexivity]]|].
    apply Forall_app. split; [exact IH|]. constructor; [apply one_app; [apply one_pad|apply one_check; reflexivity]|constructor].
  - constructor.
  - intros m s ss' l1 l2 _ H1 _ H2. apply Forall_app. auto.
Qed.
Lemma block_one d ls : block d ls -> Forall one_line ls.
Proof.
  destruct d; cbn [block]; [intros ->; constructor|]. intros (inner & -> & _ & H). constructor; [apply one_check; reflexivity|].
  apply Forall_app. split; [exact H|constructor; [apply one_check; reflexivity|constructor]].
Qed.
Lemma items_one its ls : items its ls -> Forall one_line ls.
Proof.
  induction 1 as [|d n r bl l ls Hb _ Hl _ IH]; [constructor|]. apply Forall_app. split; [exact (block_one _ _ Hb)|constructor; assumption].
Qed.
Lemma braces_one h its ls : one_line h -> braces h its ls -> Forall one_line ls.
Proof.
  intros Hh H. destruct its as [|n its]; cbn [braces] in H; [subst; constructor; [exact Hh|constructor]|].
  destruct H as (inner & -> & H). constructor; [apply one_app; [exact Hh|apply one_check; reflexivity]|]. apply Forall_app. split; [exact (items_one _ _ H)|].
  constructor; [apply one_check; reflexivity|constructor].
Qed.
Lemma bars_one names h ls : one_line h -> bars names h ls -> Forall one_line ls.
Proof.
  intros Hh [Hn ->]. destruct (Nat.ltb _ _); constructor; auto. apply Forall_map. eapply Forall_impl; [|exact Hn]. intros n H. cbv beta.
  apply one_app; [exact (one_pad 1)|]. apply one_app; [apply one_check; reflexivity|exact H].
Qed.
Lemma implementing_one k its names : forall ls, implementing k names its ls -> Forall one_line ls.
Proof.
  induction names as [|n names IH]; intros ls H; [destruct H|]. destruct names as [|m names].
  - destruct H as (last & _ & Hl & H). exact (braces_one _ _ _ Hl H).
  - destruct H as (ls' & -> & Hn & H). constructor; [|exact (IH ls' H)]. apply one_app; [apply one_pad|]. apply one_app; [apply one_check; reflexivity|exact Hn].
Qed.
Lemma object_one names its h ls : one_line h -> object_laid names its h ls -> Forall one_line ls.
Proof.
  intros Hh H. unfold object_laid in H. destruct (Nat.ltb _ _); [exact (braces_one _ _ _ Hh H)|]. destruct H as (w & ls' & _ & -> & H). constructor; [exact Hh|].
  exact (implementing_one _ _ _ _ H).
Qed.
Lemma def_laid_one lone b ls : def_laid lone b ls -> Forall one_line ls.
Proof.
  assert (Bl : forall h e inner, one_line h -> one_line e -> Forall one_line inner -> Forall one_line ((h ++ e) :: inner ++ [B "}"])).
  { intros h e inner Hh He Hi. constructor; [apply one_app; assumption|]. apply Forall_app. split; [exact Hi|constructor; [apply one_check; reflexivity|constructor]]. }
  intros (above & below & -> & Ha & h & Hh & H). apply Forall_app. split; [exact (block_one _ _ Ha)|]. destruct b.
  - destruct H as (inner & -> & H & _). apply Bl; [exact Hh|destruct lone; apply one_check; reflexivity|eapply all_laid_one, H].
  - destruct H as (inner & -> & H & _). apply Bl; [exact Hh|apply one_check; reflexivity|eapply all_laid_one, H].
  - eapply braces_one; [exact Hh|apply H].
  - destruct H as [H _]. unfold type_laid in H. destruct (t_kind _); try (eapply braces_one; eassumption); [eapply object_one; eassumption|eapply bars_one; eassumption].
  - eapply bars_one; [exact Hh|apply H].
  - eapply braces_one; [exact Hh|apply H].
  - destruct H as [H _]. unfold type_laid in H. destruct (t_kind _); try (eapply braces_one; eassumption); [eapply object_one; eassumption|eapply bars_one; eassumption].
Qed.
Lemma separated_one lss : Forall (Forall one_line) lss -> Forall one_line (separated lss).
Proof.
  induction lss as [|ls lss IH]; intros H; [constructor|]. cbn [separated]. destruct lss as [|l1 lss]; [exact (Forall_inv H)|].
  apply Forall_app. split; [exact (Forall_inv H)|]. constructor; [apply one_nil|]. apply IH. exact (Forall_inv_tail H).
Qed.
