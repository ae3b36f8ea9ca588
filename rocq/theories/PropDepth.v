(** * PropDepth: property theorems C71 (how deep Parse recurses).
    Model: [ParserDepth.parse_within fok k] — Parse when at most [k] calls of the recursive functions (parseType, parseValue,
    parseSelectionSet) may be active at a time; [Diverges] then means that a further one was needed.
    Specification: DepthSpec.v ([nested_at_most], [document_fits]). *)
From Verif Require Import Base Utf8 Lexer LexSpec AST Parser Grammar ParserWp ParserSound ParserDepth DepthSpec DepthProofs PropLex PropParse PropParseErr.

Lemma opens_bracket t : opens t = bracket ["{"; "["]%string t.
Proof. unfold opens, is1, bracket. destruct (tkind t); cbn; rewrite ?orb_false_r; reflexivity. Qed.
Lemma closes_bracket t : closes t = bracket ["}"; "]"]%string t.
Proof. unfold closes, is1, bracket. destruct (tkind t); cbn; rewrite ?orb_false_r; reflexivity. Qed.
Lemma both_brackets t : opens t = true -> closes t = false.
Proof.
  unfold opens, closes, is1. intros H. destruct (kind_eqb (tkind t) KPunct); [|discriminate]. cbn [andb] in *.
  destruct (beqb_spec (tlit t) (B "{")) as [->|N]; [reflexivity|]. destruct (beqb_spec (tlit t) (B "[")) as [->|N2]; [reflexivity|discriminate].
Qed.
Lemma height_nested ts : forall h, nested_at_most h ts -> height ts <= h.
Proof.
  induction ts as [|t ts IH]; intros h H; [cbn; lia|]. cbn [height]. destruct (opens t) eqn:Eo.
  - pose proof (both_brackets t Eo) as Ec. rewrite opens_bracket in Eo. rewrite closes_bracket in Ec.
    pose proof (H [t] ts eq_refl) as H1. unfold how_many in H1. cbn [filter] in H1. rewrite Eo, Ec in H1. cbn in H1. destruct h as [|h]; [lia|]. apply le_n_S, IH.
    intros pre post E. specialize (H (t :: pre) post ltac:(cbn; congruence)). unfold how_many in *. cbn [filter] in H. rewrite Eo, Ec in H. cbn [List.length] in H. lia.
  - destruct (closes t) eqn:Ec; rewrite opens_bracket in Eo; rewrite closes_bracket in Ec.
    + assert (height ts <= S h); [apply IH|lia]. intros pre post E. specialize (H (t :: pre) post ltac:(cbn; congruence)). unfold how_many in *. cbn [filter] in H. rewrite Eo, Ec in H. cbn [List.length] in H. lia.
    + apply IH. intros pre post E. specialize (H (t :: pre) post ltac:(cbn; congruence)). unfold how_many in *. cbn [filter] in H. rewrite Eo, Ec in H. exact H.
Qed.

Definition outcome (r : pres (list definition * counts)) : result :=
  match r with POk x _ => Doc (doc_of x) | PErr e _ => Error e | PCrash NilDeref => GoPanic | PCrash _ => Diverges end.
Lemma parse_outcome fok i ts : tokens i ts -> parse fok i = outcome (parse_loop fok (List.length ts) (List.length ts) (mkC 0 0 0 0 0 0 []) ts).
Proof. intros Ht. rewrite (parse_eq fok i ts Ht). unfold parse_tokens, pbind, outcome. destruct (parse_loop _ _ _ _ ts) as [x r|e r|[]]; reflexivity. Qed.
Lemma within_outcome fok k i ts : tokens i ts -> parse_within fok k i = outcome (parse_loop_d fok (List.length ts) k (List.length ts) (mkC 0 0 0 0 0 0 []) ts).
Proof. intros (s & Ht). unfold parse_within. rewrite Ht. unfold parse_tokens_d, pbind, outcome. destruct (parse_loop_d _ _ _ _ _ ts) as [x r|e r|[]]; reflexivity. Qed.

(** *** If nowhere more than [h] brackets are open, [h + 1] calls are enough. *)
Theorem C71_enough : forall fok i ts h k, tokens i ts -> nested_at_most h ts -> h < k -> parse_within fok k i = parse fok i.
Proof.
  intros fok i ts h k Ht Hn Hk. rewrite (parse_outcome fok i ts Ht), (within_outcome fok k i ts Ht). destruct (parse_loop_returns fok i ts Ht) as [H1 H2].
  pose proof (sim_parse_loop fok (List.length ts) (List.length ts) k (le_n _) h (List.length ts) Hk (List.length ts) (mkC 0 0 0 0 0 0 []) (le_n _) ts (height_nested ts h Hn)) as S.
  destruct (parse_loop fok _ _ _ ts) as [x r|e r|[]]; try congruence; [destruct S as [-> _]; reflexivity|rewrite S; reflexivity..].
Qed.
Print Assumptions C71_enough.

(** *** If [k] calls are enough, the outcome is that of Parse, and nothing in a returned document is nested deeper than [k]. *)
Theorem C71_needed : forall fok i k, parse_within fok k i <> Diverges ->
  parse_within fok k i = parse fok i /\ forall d, parse fok i = Doc d -> document_fits k d.
Proof.
  intros fok i k Hw. destruct (tokens_wf i) as (ts & Ht & _). rewrite (within_outcome fok k i ts Ht) in *. rewrite (parse_outcome fok i ts Ht).
  destruct (parse_loop_returns fok i ts Ht) as [H1 H2].
  pose proof (fuel_up fok (mkC 0 0 0 0 0 0 []) (List.length ts + k) ts ltac:(lia) H1 H2) as Hf.
  pose proof (fit_parse_loop fok (List.length ts) k (List.length ts + k) (le_n _) (List.length ts) (List.length ts + k) (mkC 0 0 0 0 0 0 []) ltac:(lia) ts) as F.
  rewrite Hf in F. destruct (parse_loop_d fok _ _ _ _ ts) as [x r|e r|[]]; cbn [outcome] in *; try congruence.
  - destruct F as [-> F]. split; [reflexivity|]. intros d E. injection E as <-. destruct x as [ds [? ? ? ? ? ? ?]]. exact F.
  - rewrite F. split; [reflexivity|]. discriminate.
  - rewrite F. split; [reflexivity|]. discriminate.
Qed.
Print Assumptions C71_needed.

Lemma C71_decide fok i k : parse_within fok k i = parse fok i \/ parse_within fok k i <> parse fok i.
Proof.
  destruct (parse_within fok k i) eqn:E; try (left; rewrite <- E; apply C71_needed; rewrite E; discriminate). right. intros H. apply (C10_parse_terminates fok i). congruence.
Qed.
(** *** More room changes nothing; so there is a least number of calls that is enough, at most one more than there are tokens. *)
Theorem C71_monotone : forall fok i k k', k <= k' -> parse_within fok k i <> Diverges -> parse_within fok k' i = parse_within fok k i.
Proof.
  intros fok i k k' Hk Hw. destruct (tokens_wf i) as (ts & Ht & _). rewrite (within_outcome fok k i ts Ht) in *. rewrite (within_outcome fok k' i ts Ht).
  pose proof (more_parse_loop fok (List.length ts) k k' Hk (List.length ts) (List.length ts) (mkC 0 0 0 0 0 0 []) (le_n _) ts) as F.
  destruct (parse_loop_d fok _ k _ _ ts) as [x r|e r|[]]; cbn [outcome] in *; try congruence; [destruct F as [-> _]|rewrite F|rewrite F]; reflexivity.
Qed.
Print Assumptions C71_monotone.
Theorem C71_least : forall fok i ts, tokens i ts -> exists k, k <= S (List.length ts) /\ forall k', parse_within fok k' i = parse fok i <-> k <= k'.
Proof.
  intros fok i ts Ht.
  assert (E : parse_within fok (S (List.length ts)) i = parse fok i).
  { apply (C71_enough fok i ts (List.length ts) _ Ht); [|lia]. intros pre post ->. unfold how_many. rewrite app_length. assert (H : forall f, List.length (filter f pre) <= List.length pre) by (intros f; clear; induction pre as [|x l IH]; cbn; [lia|destruct (f x); cbn; lia]). specialize (H (bracket ["{"; "["]%string)). lia. }
  assert (L : forall b, parse_within fok b i = parse fok i -> exists k, k <= b /\ forall k', parse_within fok k' i = parse fok i <-> k <= k').
  { induction b as [|b IH]; intros Hb.
    - exists 0. split; [lia|]. intros k'. split; [lia|]. intros _. rewrite (C71_monotone fok i 0 k' ltac:(lia)); [exact Hb|rewrite Hb; apply C10_parse_terminates].
    - destruct (C71_decide fok i b) as [Hd|Hd]; [destruct (IH Hd) as (k & Hk & H); exists k; split; [lia|exact H]|]. exists (S b). split; [lia|]. intros k'. split.
      + intros H. destruct (Nat.le_gt_cases (S b) k') as [L|L]; [exact L|]. exfalso. apply Hd. rewrite (C71_monotone fok i k' b ltac:(lia)); [exact H|rewrite H; apply C10_parse_terminates].
      + intros H. rewrite (C71_monotone fok i (S b) k' H); [exact Hb|rewrite Hb; apply C10_parse_terminates]. }
  destruct (L _ E) as (k & Hk & H). exists k. split; assumption.
Qed.
Print Assumptions C71_least.

(** *** No fixed number of calls is enough: the selection set of depth [n + 1], in [3 n + 3] bytes. *)
Local Open Scope Z_scope.
Fixpoint pile (n : nat) : list Z := [123; 97] ++ match n with O => [] | S n => pile n end ++ [125].
Fixpoint piled (n : nat) : list selection := [SField [] (B "a") [] [] match n with O => [] | S n => piled n end].
Fixpoint pile_shape (n : nat) : list (kind * bytes) :=
  [(KPunct, B "{"); (KName, B "a")] ++ match n with O => [] | S n => pile_shape n end ++ [(KPunct, B "}")].
Lemma pile_chars n : Forall (fun c => In c [123; 97; 125]) (pile n).
Proof. induction n as [|n IH]; cbn [pile app]; repeat (constructor; [cbn; auto|]); [constructor|]. apply Forall_app. split; [exact IH|]. constructor; [cbn; auto|constructor]. Qed.
Lemma pile_clean n : clean (pile n).
Proof. eapply Forall_impl; [|apply pile_chars]. intros c H. cbn in H. unfold scalar. lia. Qed.
Lemma pile_regular n : regular_blocks (pile n).
Proof.
  left. intros (a & b & E). pose proof (pile_chars n) as H. rewrite E in H. apply Forall_app in H. destruct H as [_ H]. inversion H as [|x l Hx]. cbn in Hx. lia.
Qed.
Lemma pile_lexing n : forall pre rest toks, lexing (pre ++ pile n) rest toks [] -> exists t, lexing pre (pile n ++ rest) (t ++ toks) [] /\ map (fun k => (skind k, slit k)) t = pile_shape n.
Proof.
  assert (P : forall c pre rest toks, In c [123; 125] -> lexing (pre ++ [c]) rest toks [] -> lexing pre (c :: rest) (mkStok KPunct (utf8s [c]) pre [c] :: toks) []).
  { intros c pre rest toks Hc H. apply (lg_token pre KPunct [c] (utf8s [c]) nothing rest); [constructor; cbn in *; unfold punctuator; cbn; intuition|destruct rest; [exact I|intros []]|exact H]. }
  assert (N : forall pre c rest toks, In c [123; 125] -> lexing (pre ++ [97]) (c :: rest) toks [] -> lexing pre (97 :: c :: rest) (mkStok KName (utf8s [97]) pre [97] :: toks) []).
  { intros pre c rest toks Hc H. apply (lg_token pre KName [97] (utf8s [97]) name_char (c :: rest)); [constructor; [unfold letter; lia|constructor]|unfold ends, name_char, letter, digit; cbn in Hc; lia|exact H]. }
  induction n as [|n IH]; intros pre rest toks H.
  - cbn [pile app] in *. exists [mkStok KPunct (utf8s [123]) pre [123]; mkStok KName (utf8s [97]) (pre ++ [123]) [97]; mkStok KPunct (utf8s [125]) ((pre ++ [123]) ++ [97]) [125]].
    split; [|reflexivity]. cbn [app]. apply P; [cbn; auto|]. apply N; [cbn; auto|]. apply P; [cbn; auto|]. rewrite <- !app_assoc. exact H.
  - cbn [pile] in *. pose (z := mkStok KPunct (utf8s [125]) (((pre ++ [123]) ++ [97]) ++ pile n) [125]). destruct (IH ((pre ++ [123]) ++ [97]) (125 :: rest) (z :: toks)) as (t & Ht & Es).
    { apply P; [cbn; auto|]. rewrite <- !app_assoc in *. exact H. }
    exists (mkStok KPunct (utf8s [123]) pre [123] :: mkStok KName (utf8s [97]) (pre ++ [123]) [97] :: t ++ [z]).
    split.
    + cbn [app]. rewrite <- !app_assoc. cbn [app]. apply P; [cbn; auto|]. assert (Hp : exists q, pile n = 123 :: q) by (destruct n; eexists; reflexivity). destruct Hp as (q & Eq). rewrite Eq. cbn [app]. apply N; [cbn; auto|].
      rewrite Eq in Ht. exact Ht.
    + cbn [map]. rewrite map_app, Es. reflexivity.
Qed.
Definition form (t : token) : kind * bytes := (tkind t, tlit t).
Lemma form_terminal t k l r : form t = (k, l) -> terminal k l (t :: r) r.
Proof. destruct t as [k' l' ln c]. cbn. intros E. injection E as -> ->. constructor. Qed.
Lemma cons_eq {A} (x y : A) l m : x :: l = y :: m -> x = y /\ l = m.
Proof. intros E. split; congruence. Qed.
Lemma pile_selset fok n : forall ts r, map form ts = pile_shape n -> g_selset fok June2018 (ts ++ r) (piled n) r.
Proof.
  induction n as [|n IH]; intros ts r E.
  - cbn [pile_shape app] in E. destruct ts as [|t1 [|t2 [|t3 [|]]]]; try discriminate. cbn [map] in E. apply cons_eq in E. destruct E as [E1 E]. apply cons_eq in E. destruct E as [E2 E]. apply cons_eq in E. destruct E as [E3 _]. cbn [app piled].
    eapply ss_intro; [apply form_terminal; exact E1| |discriminate|apply form_terminal; exact E3].
    econstructor; [|constructor]. econstructor; [apply al_none, form_terminal; exact E2|apply args_none|constructor|constructor].
  - cbn [pile_shape app] in E. destruct ts as [|t1 [|t2 ts]]; try discriminate. cbn [map] in E. apply cons_eq in E. destruct E as [E1 E]. apply cons_eq in E. destruct E as [E2 E].
    apply map_eq_app in E. destruct E as (s & e & -> & Es & Ee). destruct e as [|t3 [|]]; try discriminate. apply cons_eq in Ee. destruct Ee as [E3 _]. cbn [app piled].
    rewrite <- app_assoc. eapply ss_intro; [apply form_terminal; exact E1| |discriminate|apply form_terminal; exact E3].
    econstructor; [|constructor]. econstructor; [apply al_none, form_terminal; exact E2|apply args_none|constructor|]. apply os_some. apply IH, Es.
Qed.
Lemma piled_fits n : forall k, sels_fit k (piled n) -> (n + 1 < k)%nat.
Proof.
  induction n as [|n IH]; intros k H; destruct k as [|k]; cbn [sels_fit piled] in H; try contradiction; pose proof (Forall_inv H) as (_ & _ & Hs).
  - destruct k; [contradiction|lia].
  - apply IH in Hs. lia.
Qed.
Lemma pile_legal n : Forall (fun x => fst x <> KIllegal) (pile_shape n).
Proof. induction n as [|n IH]; cbn [pile_shape app]; repeat (constructor; [cbn; discriminate|]); [constructor|]. apply Forall_app. split; [exact IH|]. constructor; [cbn; discriminate|constructor]. Qed.
Lemma shape_form l : Forall (fun x => fst x <> KIllegal) l -> forall ts, map LexProps.shape ts = l -> map form ts = l.
Proof.
  induction 1 as [|x l Hx _ IH]; intros [|t ts] E; try discriminate; [reflexivity|]. cbn [map] in *. apply cons_eq in E. destruct E as [E1 E2]. f_equal; [|apply IH, E2].
  subst x. unfold LexProps.shape, form in *. cbn [fst] in Hx. destruct (tkind t); try reflexivity. exfalso. apply Hx. reflexivity.
Qed.
Definition opening (x : kind * bytes) : bool := match fst x with KPunct => beqb (snd x) (B "{") || (beqb (snd x) (B "[") || false) | _ => false end.
Lemma pile_opening n : List.length (filter opening (pile_shape n)) = S n.
Proof.
  induction n as [|n IH]; [reflexivity|]. cbn [pile_shape]. rewrite !filter_app, !app_length, IH. cbn. lia.
Qed.
Theorem C71_no_bound : forall fok n, exists d, parse fok (utf8s (pile n)) = Doc d /\ map def_body (doc_defs d) = [DOp (mkOp Query [] [] [] (piled n))] /\
  List.length (utf8s (pile n)) = (3 * n + 3)%nat /\ forall k, parse_within fok k (utf8s (pile n)) = parse fok (utf8s (pile n)) <-> (n + 1 < k)%nat.
Proof.
  intros fok n. destruct (pile_lexing n [] [] []) as (t & Ht & Es); [constructor|]. rewrite !app_nil_r in Ht.
  destruct (C02_complete (pile n) t [] (pile_clean n) (pile_regular n) Ht (or_introl eq_refl)) as (ts & s & Hl & Em).
  rewrite Es in Em. assert (Hts : tokens (utf8s (pile n)) ts) by (exists s; exact Hl).
  apply map_eq_app in Em. destruct Em as (ts1 & te & -> & E1 & E2). destruct te as [|e [|]]; try discriminate. apply (shape_form _ (pile_legal n)) in E1. injection E2 as Ek El. rewrite Ek in El.
  assert (Hd : exists h, hd_error ts1 = Some h). { destruct ts1 as [|h l]; [destruct n; discriminate|]. exists h. reflexivity. }
  destruct Hd as (h & Hh). destruct ts1 as [|h' ts1]; [discriminate|]. injection Hh as ->.
  assert (Hg : g_document fok June2018 ((h :: ts1) ++ [e]) [mkDef (tline h) (tcol h) (DOp (mkOp Query [] [] [] (piled n)))]).
  { exists e. split; [exact Ek|]. apply ds_one; [|intros []]. cbn [app]. apply def_intro. apply b_op, op_short. exact (pile_selset fok n (h :: ts1) [e] E1). }
  destruct (C12_complete fok _ _ June2018 _ Hts (or_introl eq_refl) Hg) as (d & Hp & Hds). exists d. split; [exact Hp|]. split; [rewrite Hds; reflexivity|]. split.
  { clear. induction n as [|n IH]; [reflexivity|]. cbn [pile]. unfold utf8s in *. rewrite !flat_map_app, !app_length, IH. cbn. lia. }
  intros k. split.
  - intros Hw. destruct (C71_needed fok (utf8s (pile n)) k) as [_ Hf]; [rewrite Hw; apply C10_parse_terminates|]. specialize (Hf d Hp). unfold document_fits in Hf. rewrite Hds in Hf.
    pose proof (Forall_inv Hf) as (_ & _ & Hs). apply piled_fits in Hs. exact Hs.
  - intros Hk. apply (C71_enough fok _ _ (n + 1)%nat k Hts); [|exact Hk].
    intros pre post E. apply (f_equal (map form)) in E. rewrite map_app, (map_app form pre), E1 in E. cbn [map] in E.
    assert (Hc : how_many ["{"; "["]%string pre = List.length (filter opening (map form pre))).
    { clear. unfold how_many. induction pre as [|t l IH]; [reflexivity|]. cbn [filter map]. change (bracket ["{"; "["]%string t) with (opening (form t)). destruct (opening (form t)); cbn [List.length]; congruence. }
    assert (Hle : List.length (filter opening (map form pre ++ map form post)) = S n).
    { rewrite <- E, filter_app, app_length, pile_opening. unfold form, opening. cbn. rewrite Ek. cbn. lia. }
    rewrite filter_app, app_length in Hle. rewrite Hc. lia.
Qed.
Print Assumptions C71_no_bound.

(** A document with every kind of nesting: the variable's type is four deep (three lists and the name), the value five (two lists, two objects and the
    number), in a selection set that is itself two deep. *)
Definition nested_query : bytes := B "query ($v: [[[T]]]) { a { b(x: [[{y: {z: 1}}]]) { c } } }".
Example C71_nonvacuous : exists d, parse anyfloat nested_query = Doc d /\ parse_within anyfloat 7 nested_query = Doc d /\ parse_within anyfloat 6 nested_query = Diverges /\
  parse_within anyfloat 2 (B "{ a { b(x: ) } }") = Diverges /\ (exists e, parse_within anyfloat 3 (B "{ a { b(x: ) } }") = Error e) /\
  parse_within anyfloat 3 (B "query ($v: [[[) { a }") = Diverges /\ (exists d, parse_within anyfloat 4 (B "query ($v: [[[) { a }") = Doc d).
Proof.
  eexists. split; [vm_compute; reflexivity|]. split; [vm_compute; reflexivity|]. split; [vm_compute; reflexivity|]. split; [vm_compute; reflexivity|].
  split; [eexists; vm_compute; reflexivity|]. split; [vm_compute; reflexivity|]. eexists; vm_compute; reflexivity.
Qed.
Example C71_nested_query : exists ts, tokens nested_query ts /\ nested_at_most 6 ts.
Proof.
  eexists. split; [eexists; vm_compute; reflexivity|]. intros pre post E.
  repeat (destruct pre as [|? pre]; [vm_compute; lia|]; cbn [app] in E; apply cons_eq in E; destruct E as [<- E]). destruct pre; [vm_compute; lia|discriminate].
Qed.
