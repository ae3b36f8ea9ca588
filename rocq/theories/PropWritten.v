(** * PropWritten: C65 — a document holds only what its source writes, in the order in which it is written, and is no bigger. *)
From Verif Require Import Base Utf8 Lexer LexSpec LexerTotal LexAgree LexMain AST Parser Grammar GrammarFrame Written WrittenProofs PropParse.

(** ** The texts of a document are texts of distinct tokens of its source, in the order of the source. *)
Theorem C65_texts : forall fok i d ts, parse fok i = Doc d -> tokens i ts ->
  within (document_texts (doc_defs d)) (map (fun t => (tkind t, tlit t)) ts).
Proof.
  intros fok i d ts Hp Ht. destruct (C13_sound fok i d Hp) as (ts' & Ht' & (e & He & Hg) & _). rewrite (tokens_fun _ _ _ Ht' Ht) in Hg.
  destruct (g_defs_pays _ _ _ _ _ Hg) as (p & -> & W & _). rewrite map_app. rewrite <- (app_nil_r (document_texts _)). apply within_app; [exact W|apply within_nil].
Qed.
Print Assumptions C65_texts.

(** The document has no more nodes, and no more texts, than its source has bytes — whatever the bytes. *)
Theorem C65_nodes : forall fok i d, parse fok i = Doc d ->
  document_size (doc_defs d) <= List.length i /\ List.length (document_texts (doc_defs d)) <= List.length i.
Proof.
  intros fok i d Hp. destruct (C13_sound fok i d Hp) as (ts & Ht & (e & He & Hg) & _). destruct (g_defs_pays _ _ _ _ _ Hg) as (p & -> & W & Hn).
  destruct Ht as (s & Ht). destruct (lex_all_total i) as (pre & last & s' & H1 & H2 & H3 & H4). rewrite Ht in H1. injection H1 as E _.
  apply app_inj_tail in E as [-> _]. apply within_length in W. rewrite map_length in W. lia.
Qed.
Print Assumptions C65_nodes.

(** The int32 counters of the document (C14) cannot overflow on a source of less than 2^31 bytes: there are at least as many bytes as
    definitions. *)
Lemma body_size_pos b : 1 <= body_size b.
Proof. destruct b; cbn [body_size]; unfold op_size, frag_size, sd_size, td_size, dd_size; lia. Qed.
Lemma filter_short {A} (f : A -> bool) (l : list A) : List.length (filter f l) <= List.length l.
Proof. induction l as [|a l IH]; [cbn; lia|]. cbn [filter]. destruct (f a); cbn [List.length]; lia. Qed.
Theorem C14_no_overflow : forall fok i d, parse fok i = Doc d -> (Z.of_nat (List.length i) < 2 ^ 31)%Z ->
  List.length (doc_defs d) <= List.length i /\
  Forall (fun n => (Z.of_nat n < 2 ^ 31)%Z) [n_ops d; n_frags d; n_dirdefs d; n_schemas d; n_types d; n_schemaexts d; n_typeexts d].
Proof.
  intros fok i d Hp Hi. assert (L : List.length (doc_defs d) <= List.length i).
  { destruct (C65_nodes fok i d Hp) as [H _]. eapply Nat.le_trans; [|exact H]. unfold document_size, total. clear. induction (doc_defs d) as [|x l IH]; [cbn; lia|].
    cbn [List.length fold_right]. pose proof (body_size_pos (def_body x)). lia. }
  split; [exact L|]. destruct (C14_counters fok i d Hp) as (-> & -> & -> & -> & -> & -> & names & Hn & He & ->).
  assert (C : forall f, count f d <= List.length i) by (intros f; unfold count; eapply Nat.le_trans; [apply filter_short|exact L]).
  repeat (apply Forall_cons; [match goal with |- context [count ?f d] => pose proof (C f); lia | _ => idtac end|]); [|constructor].
  assert (List.length names <= List.length (doc_defs d)); [|lia].
  rewrite <- (map_length (fun x => match def_body x with XType t => t_name t | _ => [] end)). apply NoDup_incl_length; [exact Hn|].
  intros n Hin. apply He in Hin. unfold extended_name in Hin. destruct Hin as (x & t & Hx & Et & En). apply in_map_iff. exists x. rewrite Et. split; [exact En|exact Hx].
Qed.
Print Assumptions C14_no_overflow.

(** ** The texts take no more bytes than the source. *)
Definition width (v : list Z) : nat := List.length (chars_utf8 v).
Lemma width_app a b : width (a ++ b) = width a + width b.
Proof. unfold width, chars_utf8. rewrite flat_map_app, app_length. reflexivity. Qed.
Lemma width_cons c b : width (c :: b) = width [c] + width b.
Proof. exact (width_app [c] b). Qed.
Lemma width_rev v : width (rev v) = width v.
Proof. induction v as [|c v IH]; [reflexivity|]. cbn [rev]. rewrite width_app, (width_cons c v), IH. lia. Qed.
Lemma width_pos c : 1 <= width [c].
Proof. unfold width, chars_utf8. cbn [flat_map]. rewrite app_nil_r. apply utf8_length. Qed.
Lemma width_skipn n v : width (skipn n v) <= width v.
Proof. rewrite <- (firstn_skipn n v) at 2. rewrite width_app. lia. Qed.
Lemma width_bmp c : (0 <= c < 65536)%Z -> width [c] <= 3.
Proof.
  intros H. unfold width, chars_utf8. cbn [flat_map]. rewrite app_nil_r. destruct (scalarb c); [|vm_compute; lia]. unfold utf8.
  destruct (Z.ltb_spec c 128); [cbn; lia|]. destruct (Z.ltb_spec c 2048); [cbn; lia|]. destruct (Z.ltb_spec c 65536); [cbn; lia|lia].
Qed.
Lemma hexdigit_range c x : hexdigit c x -> (0 <= x < 16)%Z.
Proof. intros []; lia. Qed.
Lemma string_width b v : string_chars b v -> width v <= width b.
Proof.
  intros H. induction H as [|c b v H1 H2 H3 H IH|e x b v H1 H IH|h1 h2 h3 h4 x1 x2 x3 x4 b v H1 H2 H3 H4 H IH]; [lia|..].
  - rewrite (width_cons c b), (width_cons c v). lia.
  - rewrite (width_cons 92 (e :: b)), (width_cons e b), (width_cons x v). pose proof (width_pos e). pose proof (width_pos 92).
    assert (width [x] = 1); [|lia]. unfold escape in H1. cbn [In] in H1. repeat (destruct H1 as [H1|H1]; [injection H1 as <- <-; reflexivity|]). contradiction.
  - rewrite (width_cons 92 (_ :: _)), (width_cons 117 (_ :: _)), (width_cons h1 (_ :: _)), (width_cons h2 (_ :: _)), (width_cons h3 (_ :: _)), (width_cons h4 b), (width_cons _ v).
    pose proof (width_pos 92). pose proof (width_pos 117). pose proof (width_pos h1). apply hexdigit_range in H1, H2, H3, H4.
    pose proof (width_pos h2). pose proof (width_pos h3). pose proof (width_pos h4).
    assert (width [(x1 * 4096 + x2 * 256 + x3 * 16 + x4)%Z] <= 3) by (apply width_bmp; lia). lia.
Qed.
Lemma block_width b v : block_chars b v -> width v <= width b.
Proof.
  intros H. induction H as [|b v H IH|c b v H1 H2 H3 H IH]; [lia| |].
  - change (92 :: 34 :: 34 :: 34 :: b)%Z with ([92; 34; 34; 34]%Z ++ b). change (34 :: 34 :: 34 :: v)%Z with ([34; 34; 34]%Z ++ v). rewrite !width_app.
    change (width [92; 34; 34; 34]%Z) with 4. change (width [34; 34; 34]%Z) with 3. lia.
  - rewrite (width_cons c b), (width_cons c v). lia.
Qed.
(** the width of lines, each with a line feed *)
Definition lines_width (ls : list (list Z)) : nat := total (fun l => S (width l)) ls.
Lemma lines_width_app a b : lines_width (a ++ b) = lines_width a + lines_width b.
Proof. unfold lines_width, total. induction a as [|x a IH]; [reflexivity|]. cbn [app fold_right]. rewrite IH. lia. Qed.
Lemma lines_width_cons a b : lines_width (a :: b) = S (width a) + lines_width b.
Proof. reflexivity. Qed.
Lemma lines_width_rev a : lines_width (rev a) = lines_width a.
Proof. induction a as [|x a IH]; [reflexivity|]. cbn [rev]. rewrite lines_width_app, IH. unfold lines_width, total. cbn [fold_right]. lia. Qed.
Lemma lines_of_width v : forall cur, lines_width (lines_of v cur) <= S (width v + width cur).
Proof.
  induction v as [v IH] using (well_founded_induction (well_founded_ltof _ (@List.length Z))). unfold ltof in IH. intros cur. destruct v as [|c t].
  - cbn [lines_of]. unfold lines_width, total. cbn [fold_right]. rewrite width_rev. change (width []) with 0. lia.
  - cbn [lines_of]. pose proof (width_pos c) as Hp. rewrite (width_cons c t). change (width []) with 0 in *.
    destruct (Z.eqb_spec c 10).
    + rewrite lines_width_cons, width_rev. pose proof (IH t ltac:(cbn; lia) []). change (width []) with 0 in *. lia.
    + destruct (Z.eqb_spec c 13).
      * destruct t as [|x t']; [rewrite lines_width_cons, width_rev; pose proof (IH [] ltac:(cbn; lia) []); change (width []) with 0 in *; lia|]. rewrite (width_cons x t') in *. pose proof (width_pos x).
        destruct (Z.eqb_spec x 10); rewrite lines_width_cons, width_rev.
        -- pose proof (IH t' ltac:(cbn; lia) []). change (width []) with 0 in *. lia.
        -- pose proof (IH (x :: t') ltac:(cbn; lia) []). rewrite (width_cons x t') in *. change (width []) with 0 in *. lia.
      * pose proof (IH t ltac:(cbn; lia) (c :: cur)). rewrite (width_cons c cur) in *. lia.
Qed.
Lemma drop_width ls : lines_width (drop_blank_lines ls) <= lines_width ls.
Proof. induction ls as [|l r IH]; [cbn; lia|]. cbn [drop_blank_lines]. destruct (blank l); [rewrite lines_width_cons; lia|lia]. Qed.
Lemma join_width ls : width (join_lf ls) <= lines_width ls - 1.
Proof.
  induction ls as [|l r IH]; [cbn; lia|]. cbn [join_lf]. destruct r as [|l' r]; [unfold lines_width, total; cbn [fold_right]; lia|].
  rewrite width_app, (width_cons 10), lines_width_cons. change (width [10%Z]) with 1. rewrite lines_width_cons in *. lia.
Qed.
Lemma unindent_width n ls : lines_width (map (skipn n) ls) <= lines_width ls.
Proof. induction ls as [|l r IH]; [cbn; lia|]. cbn [map]. rewrite !lines_width_cons. pose proof (width_skipn n l). lia. Qed.
Lemma block_value_width raw : width (block_string_value raw) <= width raw.
Proof.
  unfold block_string_value. cbv zeta. eapply Nat.le_trans; [apply join_width|]. rewrite lines_width_rev. pose proof (lines_of_width raw []) as L. change (width []) with 0 in L.
  set (u := match lines_of raw [] with [] => [] | _ => _ end). assert (U : lines_width u <= lines_width (lines_of raw [])).
  { subst u. destruct (lines_of raw []) as [|f r]; [cbn; lia|]. destruct (common_indent r); [|lia]. rewrite !lines_width_cons. pose proof (unindent_width n r). lia. }
  pose proof (drop_width (rev (drop_blank_lines u))) as D1. rewrite lines_width_rev in D1. pose proof (drop_width u). lia.
Qed.
Lemma utf8s_len_app a b : List.length (utf8s (a ++ b)) = List.length (utf8s a) + List.length (utf8s b).
Proof. unfold utf8s. rewrite flat_map_app, app_length. reflexivity. Qed.
Lemma lexeme_width k w lit stop : clean w -> lexeme k w lit stop -> List.length lit <= List.length (utf8s w).
Proof.
  intros Hc H. destruct H as [c H|  |c w H H'|w H|w f H H'|w e H H'|w f e H H' H''|b v H|b raw H]; try apply Nat.le_refl.
  - change (34 :: b ++ [34])%Z with ([34] ++ b ++ [34])%Z in *. apply clean_app_r in Hc. assert (clean b) by (clear - Hc; unfold clean in *; apply Forall_app in Hc; tauto).
    rewrite !utf8s_len_app. rewrite <- (chars_utf8_clean b) by assumption. apply string_width in H. unfold width in H. lia.
  - apply clean_app_r in Hc. assert (clean b) by (clear - Hc; unfold clean in *; apply Forall_app in Hc; tauto).
    rewrite !utf8s_len_app. rewrite <- (chars_utf8_clean b) by assumption. pose proof (block_value_width raw) as B. apply block_width in H. unfold width in *. lia.
Qed.
Lemma lexing_width pre cs toks rest : lexing pre cs toks rest -> clean cs -> total (fun k => List.length (slit k)) toks <= List.length (utf8s cs).
Proof.
  intros H. induction H as [pre cs|pre c t ts rest Hi H IH|pre b t ts rest Hb He H IH|pre k w lit stop t ts rest Hx He H IH]; intros Hc.
  - cbn; lia.
  - change (c :: t) with ([c] ++ t) in *. rewrite utf8s_len_app. pose proof (IH (clean_app_r _ _ Hc)). lia.
  - change (35%Z :: b ++ t) with ((35%Z :: b) ++ t) in *. rewrite utf8s_len_app. pose proof (IH (clean_app_r _ _ Hc)). lia.
  - rewrite utf8s_len_app. pose proof (IH (clean_app_r _ _ Hc)). assert (clean w) as Hw by (unfold clean in *; apply Forall_app in Hc; tauto).
    pose proof (lexeme_width _ _ _ _ Hw Hx). unfold total in *. cbn [fold_right slit]. lia.
Qed.
Lemma within_total {A} (f : A -> nat) (l m : list A) : within l m -> total f l <= total f m.
Proof. intros H. unfold total. induction H; cbn [fold_right]; lia. Qed.
Lemma total_map {A C} (f : C -> nat) (g : A -> C) (l : list A) : total f (map g l) = total (fun a => f (g a)) l.
Proof. unfold total. induction l as [|a l IH]; [reflexivity|]. cbn [map fold_right]. rewrite IH. reflexivity. Qed.
Lemma total_app {A} (f : A -> nat) (l m : list A) : total f (l ++ m) = total f l + total f m.
Proof. unfold total. induction l as [|a l IH]; [reflexivity|]. cbn [app fold_right]. rewrite IH. lia. Qed.

Theorem C65_bytes : forall fok cs d, clean cs -> regular_blocks cs -> parse fok (utf8s cs) = Doc d ->
  total (fun t => List.length (snd t)) (document_texts (doc_defs d)) <= List.length (utf8s cs).
Proof.
  intros fok cs d Hc Hr Hp. destruct (lex_main cs Hc Hr) as (ts & last & s' & toks & bd & rest & H1 & H2 & H3 & H4 & H5 & _).
  assert (Ht : tokens (utf8s cs) (ts ++ [last])) by (exists s'; exact H1). destruct (C13_all_consumed _ _ _ _ Hp Ht) as (_ & pre & e & E & He).
  apply app_inj_tail in E as [_ ->]. assert (El : tlit e = []) by (destruct H5 as [(_ & H5 & _)|[H5 _]]; [exact H5|congruence]).
  pose proof (C65_texts _ _ _ _ Hp Ht) as W. apply (within_total (fun t : text => List.length (snd t))) in W. rewrite total_map, total_app in W. cbn [snd] in W. unfold total in W at 3. cbn [fold_right] in W. rewrite El in W. cbn [List.length] in W.
  pose proof (lexing_width _ _ _ _ H2 Hc) as L.
  assert (S : total (fun t => List.length (tlit t)) ts = total (fun k => List.length (slit k)) toks).
  { clear - H4. induction H4 as [|t k ts toks [_ E] _ IH]; [reflexivity|]. unfold total in *. cbn [fold_right]. rewrite E, IH. reflexivity. }
  eapply Nat.le_trans; [exact W|]. rewrite S. lia.
Qed.
Print Assumptions C65_bytes.

(** Not so for bytes that are not UTF-8: after an escape sequence in a string each such byte becomes the three bytes of U+FFFD. *)
Theorem C65_bytes_refuted : exists i d, parse anyfloat i = Doc d /\
  List.length i < total (fun t => List.length (snd t)) (document_texts (doc_defs d)).
Proof.
  exists (B "{a(b:""\n" ++ repeat (ascii_of_nat 255) 20 ++ B """)}"). eexists. split; [vm_compute; reflexivity|]. vm_compute. lia.
Qed.
Print Assumptions C65_bytes_refuted.

(** Non-vacuity: the texts and the size of a document that has something of everything. *)
Example C65_nonvacuous : exists d ts, parse anyfloat (B "query q($a: [Int!] = 3) { x: y(b: {c: [$a, true]}) @d ... on T { z } } ""D"" type T implements I { ""f"" f(i: String = ""u""): T }") = Doc d /\
  tokens (B "query q($a: [Int!] = 3) { x: y(b: {c: [$a, true]}) @d ... on T { z } } ""D"" type T implements I { ""f"" f(i: String = ""u""): T }") ts /\
  map snd (document_texts (doc_defs d)) =
    map B ["q"; "a"; "Int"; "x"; "y"; "b"; "c"; "a"; "true"; "d"; "T"; "z"; "D"; "T"; "I"; "f"; "f"; "i"; "String"; "u"; "T"]%string /\
  document_size (doc_defs d) = 23 /\ List.length ts = 58.
Proof. eexists _, _. split; [vm_compute; reflexivity|]. split; [eexists; vm_compute; reflexivity|]. split; [vm_compute; reflexivity|]. split; vm_compute; reflexivity. Qed.
