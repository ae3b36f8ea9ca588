(** * PropLayout: theorem C72 (the lines of a dumped document). *)
From Verif Require Import Base Utf8 Lexer LexSpec SchemaSpec AST Parser PropParse Dumper WellFormed NameTokens PropWell DumpLayout Samples.

Lemma name_one_line i n : name_in i n -> one_line n.
Proof.
  intros (q & r & _ & H) Hin. assert (P : forall p, proper_name p -> one_line p).
  { intros p (c & s & -> & Hc & Hs) Hi. assert (F : Forall (fun b => letter (zb b) \/ digit (zb b)) (c :: s)) by (constructor; auto).
    rewrite Forall_forall in F. specialize (F _ Hi). unfold letter, digit in F. vm_compute in F. intuition congruence. }
  destruct H as [H|(p & b & -> & H & Hb)]; [exact (P n H Hin)|]. apply in_app_or in Hin. destruct Hin as [Hin|[E|[]]]; [exact (P p H Hin)|].
  rewrite E in Hb. vm_compute in Hb. intuition congruence.
Qed.

(** ** C72.  A dumped document is laid out in lines as its definitions and their parts are nested. *)
Theorem C72_layout : forall fg fok i d text, (forall l, one_line (fg l)) -> parse fok i = Doc d ->
  Forall (fun x => simple_body (def_body x)) (doc_defs d) -> sdump fg d = Some text ->
  exists lss, Forall2 (fun x ls => def_laid (Nat.eqb (List.length (doc_defs d)) 1) (def_body x) ls) (doc_defs d) lss /\
    Forall one_line (separated lss) /\ text ++ [ascii_of_nat 10] = unlines (separated lss).
Proof.
  intros fg fok i d text Hfg Hp Hs Hd. destruct (C55_any_input fok i d Hp) as [Hne Hw]. unfold sdump, dumpDefinitions, wfor in Hd.
  destruct (defs_lines fg Hfg (name_in i) (name_one_line i) _ (List.length (doc_defs d)) (doc_defs d) 0 text eq_refl Hw Hs Hne Hd) as (lss & Hf & E).
  exists lss. split; [exact Hf|]. split; [|exact E]. apply separated_one. clear -Hf.
  induction Hf as [|x ls l lss H Hf IH]; constructor; [eapply def_laid_one, H|exact IH].
Qed.
Print Assumptions C72_layout.

(** The lines, not only that there are such lines: no two texts have the same lines, and no text two ways of being lines. *)
Theorem C72_lines_unique : forall lss lss', Forall one_line lss -> Forall one_line lss' -> unlines lss = unlines lss' -> lss = lss'.
Proof.
  induction lss as [|l lss IH]; intros [|m lss'] H H' E; [reflexivity|rewrite unlines_cons in E; destruct m; discriminate|rewrite unlines_cons in E; destruct l; discriminate|].
  rewrite !unlines_cons in E. pose proof (Forall_inv H) as Hl. pose proof (Forall_inv H') as Hm.
  assert (G : l = m /\ unlines lss = unlines lss').
  { clear -E Hl Hm. revert m Hm E. induction l as [|a l IH]; intros [|b m] Hm E.
    - injection E as E. auto.
    - exfalso. apply Hm. left. injection E as E _. symmetry. exact E.
    - exfalso. apply Hl. left. injection E as E _. exact E.
    - injection E as <- E. destruct (IH (fun h => Hl (or_intror h)) m (fun h => Hm (or_intror h)) E) as [<- E2]. auto. }
  destruct G as [<- G]. f_equal. apply IH; [exact (Forall_inv_tail H)|exact (Forall_inv_tail H')|exact G].
Qed.
Print Assumptions C72_lines_unique.

(** Decidable forms of the conditions, for the examples. *)
Definition one_lineb (b : bytes) : bool := forallb (fun c => negb (Ascii.eqb c (ascii_of_nat 10))) b.
Lemma one_lineb_ok b : one_lineb b = true -> one_line b.
Proof. intros H F. unfold one_lineb in H. rewrite forallb_forall in H. specialize (H _ F). rewrite Ascii.eqb_refl in H. discriminate. Qed.
Definition simpleb (b : body) : bool :=
  forallb one_lineb (body_strings b) && forallb (fun x => Nat.eqb (List.length x) 0) (descriptions b).
Lemma simpleb_ok d : forallb (fun x => simpleb (def_body x)) (doc_defs d) = true -> Forall (fun x => simple_body (def_body x)) (doc_defs d).
Proof.
  intros H. apply Forall_forall. intros x Hx. rewrite forallb_forall in H. specialize (H x Hx). unfold simpleb in H.
  apply andb_true_iff in H as [H1 H2]. split.
  - apply Forall_forall. intros s Hs. rewrite forallb_forall in H1. apply one_lineb_ok, H1, Hs.
  - apply Forall_forall. intros s Hs. rewrite forallb_forall in H2. specialize (H2 s Hs). destruct s; [reflexivity|discriminate].
Qed.

(** A way of printing floats. *)
Definition half (_ : bytes) : bytes := B "0.5".
Example C72_half : forall l, one_line (half l). Proof. intros l. apply one_lineb_ok. reflexivity. Qed.
Definition lines_of (l : list string) : bytes := removelast (unlines (map B l)).
(** A document with every kind of line, written on one line; its dump. *)
Definition run_together : bytes := B "query Q($v:ID=1){a b:c(d:""e"")@f{g ...h ...on I{j}}} fragment h on K{l} {m} schema{query:N mutation:O} """"""About P"""""" type P implements Q&R@s{""The t\nof P"" t(u:V=[1,2.5]):W! x:Y} union Z=A|B union C=D|E|F enum G{""h"" H I} input J{k:L m:N={o:1}} scalar P extend schema@q extend enum R{S} extend interface T{u:V} ""w"" directive@w(x:Y)on FIELD type A implements B&C&D@e{f:G} extend type H implements I&J&K directive@z on FIELD|QUERY|ENUM".
Example C72_nonvacuous : exists d, parse anyfloat run_together = Doc d /\ Forall (fun x => simple_body (def_body x)) (doc_defs d) /\
  sdump half d = Some (lines_of [
    "query Q($v: ID = 1) {"; "  a"; "  b: c(d: ""e"") @f {"; "    g"; "    ...h"; "    ... on I {"; "      j"; "    }"; "  }"; "}"; "";
    "fragment h on K {"; "  l"; "}"; "";
    "query  {"; "  m"; "}"; "";
    "schema {"; "  query: N"; "  mutation: O"; "}"; "";
    """"""""; "About P"; """"""""; "type P implements Q & R @s {"; """"""""; "The t"; "of P"; """"""""; "  t(u: V = [1, 0.5]): W!"; "  x: Y"; "}"; "";
    "union Z = A | B"; "";
    "union C ="; "  | D"; "  | E"; "  | F"; "";
    "enum G {"; """"""""; "h"; """"""""; "  H"; "  I"; "}"; "";
    "input J {"; "  k: L"; "  m: N = { o: 1 }"; "}"; "";
    "scalar P"; "";
    "extend schema @q"; "";
    "extend enum R {"; "  S"; "}"; "";
    "extend interface T {"; "  u: V"; "}"; "";
    """"""""; "w"; """"""""; "directive @w(x: Y) on FIELD"; "";
    "type A implements"; "    & B"; "    & C"; "    & D @e {"; "  f: G"; "}"; "";
    "extend type H implements"; "  & I"; "  & J"; "  & K"; "";
    "directive @z on"; "  | QUERY"; "  | FIELD"; "  | ENUM"]%string).
Proof.
  eexists. split; [vm_compute; reflexivity|]. split; [apply simpleb_ok; vm_compute; reflexivity|]. vm_compute. reflexivity.
Qed.
Example C72_lone : exists d, parse anyfloat (B "{a{b}}") = Doc d /\ Forall (fun x => simple_body (def_body x)) (doc_defs d) /\
  sdump half d = Some (lines_of ["{"; "  a {"; "    b"; "  }"; "}"]%string).
Proof. eexists. split; [vm_compute; reflexivity|]. split; [apply simpleb_ok; vm_compute; reflexivity|]. vm_compute. reflexivity. Qed.

(** What the conditions leave out.  The description of an argument or of a field of an input object splits the line it is on; a string with a line feed takes several. *)
Example C72_outside :
  (exists d, parse anyfloat (B "type A { b(""c"" d: E): F }") = Doc d /\ sdump half d = Some (lines_of ["type A {"; "  b("""""""; "c"; """"""""; "d: E): F"; "}"]%string)) /\
  (exists d, parse anyfloat (B "input A { ""b"" c: D }") = Doc d /\ sdump half d = Some (lines_of ["input A {"; "  """""""; "b"; """"""""; "c: D"; "}"]%string)) /\
  (exists d, parse anyfloat (B "{ a(b: ""c\nd"") }") = Doc d /\ sdump half d = Some (lines_of ["{"; "  a(b: """""""; "    c"; "    d"; "  """""")"; "}"]%string)).
Proof.
  split; [eexists; split; [vm_compute; reflexivity|]; vm_compute; reflexivity|].
  split; [eexists; split; [vm_compute; reflexivity|]; vm_compute; reflexivity|].
  eexists; split; [vm_compute; reflexivity|]; vm_compute; reflexivity.
Qed.
