(** * ParsedNames: the names in parsed documents are not empty. *)
From Verif Require Import Base Utf8 Lexer AST Parser Grammar GrammarProps PropParse RuleSpec.

Definition named (t : token) : Prop := tkind t = KName -> tlit t <> [].
Definition yields {A} (m : M A) (Q : A -> Prop) : Prop := forall i s a s', m i s = Ok a s' -> Q a.
Lemma yields_ret {A} (a : A) (Q : A -> Prop) : Q a -> yields (ret a) Q.
Proof. intros H i s a' s' E. injection E as <- _. exact H. Qed.
Lemma yields_bind {A C} (m : M A) (k : A -> M C) (Q : C -> Prop) : (forall a, yields (k a) Q) -> yields (bind m k) Q.
Proof. intros H i s c s' E. unfold bind in E. destruct (m i s) as [a s1| |]; try discriminate. exact (H a _ _ _ _ E). Qed.
Lemma yields_fuel {A} (f : nat -> M A) (Q : A -> Prop) : (forall n, yields (f n) Q) -> yields (with_fuel f) Q.
Proof. intros H i s a s' E. exact (H _ _ _ _ _ E). Qed.
Ltac yl := repeat first
  [ apply yields_ret; intros X; discriminate X
  | apply yields_bind; intros ?
  | match goal with |- yields (match ?x with _ => _ end) _ => destruct x end
  | match goal with |- yields (let _ := _ in _) _ => cbv zeta end ].
Lemma punct_named r w : yields (scanPunctuator r w) named.
Proof. unfold scanPunctuator, illegal. yl. Qed.
Lemma number_named r : yields (scanNumber r) named.
Proof.
  unfold scanNumber, illegal. apply yields_bind; intros s0. cbv zeta. apply yields_bind; intros a. destruct a as [e|rw]; [yl|]. apply yields_bind; intros [e|[rw1 fl]]; [yl|].
  apply yields_bind; intros [e|[[r2 w2] fl2]]; [yl|]. apply yields_bind; intros _. apply yields_bind; intros s1. apply yields_bind; intros lit. apply yields_ret. intros X. destruct fl2; discriminate X.
Qed.
Lemma string_named : yields scanString named.
Proof. unfold scanString, illegal. apply yields_bind; intros s0. cbv zeta. yl. Qed.
Lemma block_named : yields scanBlockString named.
Proof. unfold scanBlockString, illegal. apply yields_bind; intros s0. cbv zeta. yl. Qed.
Lemma readr_pos i s r w s1 : readr i s = Ok (r, w) s1 -> (pos s + w <= pos s1)%nat.
Proof.
  unfold readr, bind, read. destruct (nth_error i (pos s)) as [b|].
  - destruct (128 <=? zb b)%Z.
    + unfold readUnicode. cbn [pos]. destruct (Nat.leb (List.length i) (pos s + 1)).
      * intros E. injection E as <- <- <-. cbn. lia.
      * replace (pos s + 1)%nat with (S (pos s)) by lia. destruct (decode_rune (skipn (pos s) i)) as [r' w']. intros E. injection E as <- <- <-. cbn [pos]. lia.
    + intros E. injection E as <- <- <-. cbn. lia.
  - destruct (128 <=? eof)%Z eqn:X; [discriminate X|]. intros E. injection E as <- <- <-. lia.
Qed.
Lemma nameloop_pos n i : forall s s1, scanName_loop n i s = Ok tt s1 -> (pos s <= pos s1)%nat.
Proof.
  induction n as [|n IH]; intros s s1; [discriminate|]. cbn [scanName_loop]. unfold bind. destruct (readr i s) as [[r w] s2| |] eqn:E; try discriminate.
  apply readr_pos in E. destruct (is_name_cont r); [intros H; apply IH in H; lia|]. destruct (Z.eqb r eof); [intros H; injection H as <-; lia|].
  unfold unread. destruct (Nat.ltb (pos s2) w) eqn:L; [discriminate|]. intros H. injection H as <-. cbn. lia.
Qed.
Lemma name_named : yields scanName named.
Proof.
  intros i s t s'. unfold scanName, bind, get, with_fuel. destruct (scanName_loop (fuel_of i) i s) as [[] s1| |] eqn:E; try discriminate. apply nameloop_pos in E. unfold slice.
  destruct ((0 <=? Z.of_nat (pos s) - 1) && (Z.of_nat (pos s) - 1 <=? Z.of_nat (pos s1)) && (Z.of_nat (pos s1) <=? Z.of_nat (List.length i)))%Z eqn:C; [|discriminate].
  apply andb_true_iff in C. destruct C as [C C3]. apply andb_true_iff in C. destruct C as [C1 C2]. apply Z.leb_le in C1, C2, C3.
  unfold ret. intros H. injection H as <- _. intros _. cbn [tlit]. intros H. apply (f_equal (@List.length byte)) in H. rewrite firstn_length, skipn_length in H. cbn [List.length] in H. lia.
Qed.
Lemma scan_named : yields scan named.
Proof.
  apply yields_fuel. induction n as [|n IH]; [intros i s a s' E; discriminate|]. cbn [scan_loop]. apply yields_bind; intros [r w].
  destruct (is_name_start r); [apply name_named|]. destruct (is_punct r); [apply punct_named|]. destruct (is_digit r || (r =? 45))%lex; [apply number_named|].
  destruct (Z.eqb r 35); [apply yields_bind; intros _; exact IH|]. destruct (Z.eqb r 34).
  - apply yields_bind; intros [r1 w1]. apply yields_bind; intros [r2 w2]. destruct ((r1 =? 34) && (r2 =? 34))%lex; [apply block_named|]. apply yields_bind; intros _. apply yields_bind; intros _. apply string_named.
  - destruct (Z.eqb r eof); yl.
Qed.
Lemma tokens_named i ts : tokens i ts -> Forall named ts.
Proof.
  intros (s & H). unfold lex_all in H. revert ts s H. generalize lex_init. induction (fuel_of i) as [|n IH]; intros s0 ts s H; [discriminate|]. cbn [lex_loop] in H.
  destruct (scan i s0) as [t s1| |] eqn:E; try discriminate. apply scan_named in E. destruct (is_last t); [injection H as <- _; auto|].
  destruct (lex_loop n i s1) as [ts' s2| |] eqn:El; try discriminate. injection H as <- _. constructor; [exact E|]. eapply IH, El.
Qed.
Lemma suffix_Forall (P : token -> Prop) r ts : suffix r ts -> Forall P ts -> Forall P r.
Proof. intros (p & ->) H. apply Forall_app in H. apply H. Qed.
Lemma name_nonempty n ts r : terminal KName n ts r -> Forall named ts -> n <> [] /\ Forall named r.
Proof. intros H F. inversion H; subst. inversion F as [|? ? N F']; subst. split; [apply N; reflexivity|exact F']. Qed.
Lemma kw_named k n ts r : terminal k n ts r -> Forall named ts -> Forall named r.
Proof. intros H F. inversion H; subst. inversion F; assumption. Qed.
Definition body_named (b : body) : Prop := match b with DType t | XType t => t_name t <> [] | DDir x => dd_name x <> [] | DFrag f => f_name f <> [] | _ => True end.
Lemma tydef_named fok lv desc ts t r : g_tydef fok lv desc ts t r -> Forall named ts -> t_name t <> [].
Proof.
  intros H F. inversion H; subst; cbn [t_name]; match goal with K : terminal KName (B _) ts ?r1, N : terminal KName ?n ?r1 _ |- ?n <> [] => pose proof (kw_named _ _ _ _ K F) as F1; exact (proj1 (name_nonempty _ _ _ N F1)) end.
Qed.
Lemma desc_named ts d r : g_desc ts d r -> Forall named ts -> Forall named r.
Proof. intros H F. inversion H; subst; [exact F|eapply kw_named; eassumption]. Qed.
Lemma g_body_named fok lv ts b r : g_body fok lv ts b r -> Forall named ts -> body_named b.
Proof.
  intros H F. inversion H; subst; cbn [body_named]; try exact I.
  - match goal with K : g_frag _ _ _ _ _ |- _ => inversion K; subst end. cbn [f_name]. match goal with K : terminal KName (B _) ts ?r1, N : terminal KName ?n ?r1 _ |- ?n <> [] => pose proof (kw_named _ _ _ _ K F) as F1; exact (proj1 (name_nonempty _ _ _ N F1)) end.
  - eapply tydef_named; [eassumption|eapply desc_named; eassumption].
  - match goal with K : g_dirdef _ _ _ _ _ _, D : g_desc _ _ _ |- _ => pose proof (desc_named _ _ _ D F) as F0; inversion K; subst end. cbn [dd_name].
    match goal with K : terminal KName (B _) ?r0 ?r1, P : terminal KPunct _ ?r1 ?r2, N : terminal KName ?n ?r2 _ |- ?n <> [] => pose proof (kw_named _ _ _ _ P (kw_named _ _ _ _ K F0)) as F1; exact (proj1 (name_nonempty _ _ _ N F1)) end.
  - eapply tydef_named; [eassumption|eapply kw_named; eassumption].
Qed.
Lemma g_defs_named fok lv ts ds r : g_defs fok lv ts ds r -> Forall named ts -> Forall (fun d => body_named (def_body d)) ds.
Proof.
  induction 1 as [ts d r H _|ts d r1 l r H _ _ IH]; intros F.
  - constructor; [|constructor]. inversion H; subst. eapply g_body_named; eassumption.
  - constructor; [inversion H; subst; eapply g_body_named; eassumption|]. apply IH. eapply suffix_Forall; [eapply g_def_suffix; exact H|exact F].
Qed.
(** The types, directives and fragments that a parsed document defines or extends have non-empty names. *)
Theorem parsed_names fok i d : parse fok i = Doc d -> Forall (fun x => body_named (def_body x)) (doc_defs d).
Proof. intros H. destruct (C13_sound fok i d H) as (ts & Ht & (e & _ & Hg) & _). eapply g_defs_named; [exact Hg|eapply tokens_named, Ht]. Qed.
