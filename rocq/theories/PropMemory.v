(** * PropMemory: theorem C69 (the literals of the tokens, and so the names of a document, lie in the caller's buffer). *)
From Verif Require Import Base Utf8 Lexer LexerTotal Memory MemoryProofs AST Parser Grammar PropLex PropParse Written PropWritten.
From Coq Require Import ZifyBool ZifyNat ZifyN.

(** ** Specification *)
(** The token reads the byte at [k] of the buffer whenever its literal is looked at. *)
Definition reads (m : mtoken) (k : nat) : Prop := exists a b, mlit m = Buffer a b /\ a <= k < b.
(** The buffer after the byte at [k] has been set to [b]. *)
Definition overwrite (k : nat) (b : byte) (i : bytes) : bytes := firstn k i ++ b :: skipn (S k) i.
(** A byte with the code [x] stands in the piece of the buffer from [p] to [e]. *)
Definition stands (i : bytes) (p e : nat) (x : Z) : Prop := exists k b, p <= k < e /\ nth_error i k = Some b /\ zb b = x.
(** Where the literal of a token scanned from [p] to [e] lies. *)
Definition literal_at (i : bytes) (p e : nat) (m : mtoken) : Prop :=
  match mkind m with
  | KName | KInt | KFloat => exists a, mlit m = Buffer a e /\ p <= a < e
  | KPunct => mlit m = Own (B "...") \/ exists a, mlit m = Buffer a e /\ p <= a < e
  | KString => (exists a b, mlit m = Buffer a b /\ p < a <= b /\ b < e) \/
               exists l, mlit m = Own l /\ (l = [] \/ stands i p e 92 \/ stands i p e 13 \/ stands i p e 10)
  | KIllegal | KEOF => exists l, mlit m = Own l
  end.
(** The tokens are scanned one behind the other. *)
Inductive laid (i : bytes) : nat -> list mtoken -> Prop :=
| la_nil p : laid i p []
| la_cons p e m ms : literal_at i p e m -> p <= e <= List.length i -> laid i e ms -> laid i p (m :: ms).

(** ** Proofs *)
Lemma loop_laid n i : forall s ms s', pos s <= List.length i -> lex_loop_m n i s = Ok ms s' -> laid i (pos s) ms.
Proof.
  induction n as [|n IH]; intros s ms s' Hp H; [discriminate|]. cbn [lex_loop_m] in H. destruct (scan_m i s) as [m s1| |] eqn:E; try discriminate.
  assert (R : region i (pos s) (pos s1) m) by (eapply scan_region; [exact Hp|exact E|unfold fuel_of; lia]).
  destruct (scan_total i s Hp) as (t & s2 & E2 & Hs & _). rewrite scan_agree, E in E2. injection E2 as _ <-.
  destruct (match mkind m with KEOF | KIllegal => true | _ => false end).
  - injection H as <- <-. econstructor; [exact R|lia|constructor].
  - destruct (lex_loop_m n i s1) as [ms1 s2| |] eqn:E2; try discriminate. injection H as <- <-. econstructor; [exact R|lia|]. eapply IH; [lia|exact E2].
Qed.
Lemma reads_range i p e m k : literal_at i p e m -> reads m k -> p <= k < e.
Proof.
  intros L (a & b & E & H). unfold literal_at in L. destruct (mkind m).
  1,2: destruct L as (l & L); congruence.
  - destruct L as [L|(a' & L & L')]; [congruence|]. rewrite E in L. injection L as -> ->. lia.
  - destruct L as (a' & L & L'). rewrite E in L. injection L as -> ->. lia.
  - destruct L as (a' & L & L'). rewrite E in L. injection L as -> ->. lia.
  - destruct L as (a' & L & L'). rewrite E in L. injection L as -> ->. lia.
  - destruct L as [(a' & b' & L & L')|(l & L & _)]; [rewrite E in L; injection L as -> ->; lia|congruence].
Qed.
Lemma laid_from i p ms : laid i p ms -> forall n m k, nth_error ms n = Some m -> reads m k -> p <= k < List.length i.
Proof.
  induction 1 as [p|p e m ms L He H IH]; intros [|n] m' k Hn Hk; try discriminate.
  - injection Hn as ->. pose proof (reads_range _ _ _ _ _ L Hk). lia.
  - specialize (IH n m' k Hn Hk). lia.
Qed.
Lemma laid_disjoint i p ms : laid i p ms -> forall n n' m m' k, nth_error ms n = Some m -> nth_error ms n' = Some m' -> reads m k -> reads m' k -> n = n'.
Proof.
  induction 1 as [p|p e m ms L He H IH]; intros [|n] [|n'] m1 m2 k H1 H2 R1 R2; try discriminate; [reflexivity| | |f_equal; eapply IH; eassumption].
  - injection H1 as ->. pose proof (reads_range _ _ _ _ _ L R1). pose proof (laid_from _ _ _ H _ _ _ H2 R2). lia.
  - injection H2 as ->. pose proof (reads_range _ _ _ _ _ L R2). pose proof (laid_from _ _ _ H _ _ _ H1 R1). lia.
Qed.
Lemma nth_skip {A} (l : list A) a n : nth_error (skipn a l) n = nth_error l (a + n).
Proof. revert l; induction a as [|a IH]; intros [|x l]; try reflexivity; [cbn; destruct n; reflexivity|]. cbn. apply IH. Qed.
Lemma nth_first {A} (l : list A) c n : n < c -> nth_error (firstn c l) n = nth_error l n.
Proof. revert l n; induction c as [|c IH]; intros [|x l] [|n] H; try lia; try reflexivity. cbn. apply IH. lia. Qed.
Lemma held_nth i a b n : n < b - a -> nth_error (held i (Buffer a b)) n = nth_error i (a + n).
Proof. intros H. cbn [held]. rewrite nth_first by exact H. apply nth_skip. Qed.
Lemma nth_ext_same {A} (l l' : list A) : (forall n, nth_error l n = nth_error l' n) -> l = l'.
Proof. revert l'; induction l as [|x l IH]; intros [|y l'] H; [reflexivity|specialize (H 0); discriminate|specialize (H 0); discriminate|]. pose proof (H 0) as H0. injection H0 as ->. f_equal. apply IH. intros n. apply (H (S n)). Qed.
Lemma held_same i i' m : (forall k, reads m k -> nth_error i' k = nth_error i k) -> held i' (mlit m) = held i (mlit m).
Proof.
  intros H. unfold reads in H. destruct (mlit m) as [a b|l]; [|reflexivity]. apply nth_ext_same. intros n. destruct (Nat.lt_ge_cases n (b - a)) as [Hn|Hn].
  - rewrite !held_nth by exact Hn. apply H. exists a, b. split; [reflexivity|lia].
  - assert (X : forall x : bytes, nth_error (held x (Buffer a b)) n = None) by (intros x; apply nth_error_None; cbn [held]; rewrite firstn_length; lia). rewrite !X. reflexivity.
Qed.
Lemma overwrite_nth k b i j : k < List.length i -> nth_error (overwrite k b i) j = if Nat.eqb j k then Some b else nth_error i j.
Proof.
  intros Hk. unfold overwrite. revert i j Hk. induction k as [|k IH]; intros [|x i] [|j] Hk; cbn in *; try lia; try reflexivity. apply IH. lia.
Qed.
Lemma overwrite_length k b i : k < List.length i -> List.length (overwrite k b i) = List.length i.
Proof. intros H. unfold overwrite. rewrite app_length, firstn_length. cbn [List.length]. rewrite skipn_length. lia. Qed.

(** ** C69 *)
(** Tokens in memory are the tokens of C02–C07, as they read while the buffer still holds the source. *)
Theorem C69_tokens : forall i, exists ms, in_memory i ms /\ tokens i (map (seen i) ms) /\ laid i 0 ms.
Proof.
  intros i. destruct (lex_all_total i) as (pre & last & s & H & _). unfold lex_all in H. rewrite lex_loop_agree in H.
  destruct (lex_loop_m (fuel_of i) i lex_init) as [ms s1| |] eqn:E; try discriminate. exists ms. split; [exists s1; exact E|]. split; [exists s1; unfold lex_all; rewrite lex_loop_agree, E; reflexivity|].
  eapply (loop_laid _ _ lex_init); [cbn; lia|exact E].
Qed.
Print Assumptions C69_tokens.
Lemma memory_facts i ms : in_memory i ms -> tokens i (map (seen i) ms) /\ laid i 0 ms.
Proof. intros (s & E). destruct (C69_tokens i) as (ms' & (s' & E') & H). rewrite E in E'. injection E' as <- _. exact H. Qed.

(** What the caller does to bytes that a token does not read does not change it. *)
Theorem C69_frame : forall i i' m, (forall k, reads m k -> nth_error i' k = nth_error i k) -> seen i' m = seen i m.
Proof. intros i i' m H. unfold seen. rewrite (held_same i i' m H). reflexivity. Qed.
Print Assumptions C69_frame.

(** Overwriting a byte that a token reads changes this token and no other. *)
Theorem C69_overwrite : forall i ms n m k b, in_memory i ms -> nth_error ms n = Some m -> reads m k -> nth_error i k <> Some b ->
  seen (overwrite k b i) m <> seen i m /\
  forall n' m', nth_error ms n' = Some m' -> n' <> n -> seen (overwrite k b i) m' = seen i m'.
Proof.
  intros i ms n m k b Hm Hn Hk Hb. destruct (memory_facts i ms Hm) as [_ L]. assert (K : k < List.length i) by (apply (laid_from _ _ _ L n m k Hn Hk)). split.
  - destruct Hk as (p & e & E & Hpe). unfold seen. rewrite E. intros H. apply (f_equal tlit) in H. cbn [tlit] in H. apply (f_equal (fun l => nth_error l (k - p))) in H.
    rewrite !held_nth in H by lia. replace (p + (k - p)) with k in H by lia. rewrite overwrite_nth, Nat.eqb_refl in H by exact K. congruence.
  - intros n' m' Hn' Hne. apply C69_frame. intros j Hj. rewrite overwrite_nth by exact K. destruct (Nat.eqb_spec j k) as [->|]; [|reflexivity].
    exfalso. apply Hne. symmetry. eapply (laid_disjoint _ _ _ L n n'); eassumption.
Qed.
Print Assumptions C69_overwrite.

(** Every name and number is such a token, and so (C69_tokens) is every non-empty string written on one line without a backslash. *)
Theorem C69_shared : forall i ms m, in_memory i ms -> In m ms -> mkind m = KName \/ mkind m = KInt \/ mkind m = KFloat -> exists k, reads m k.
Proof.
  intros i ms m Hm Hin Hk. destruct (memory_facts i ms Hm) as [_ L]. clear Hm. induction L as [p|p e m' ms R He L IH]; [destruct Hin|]. destruct Hin as [->|Hin]; [|apply IH, Hin].
  unfold literal_at in R. destruct Hk as [Hk|[Hk|Hk]]; rewrite Hk in R; destruct R as (a & E & H); exists a, a, e; (split; [exact E|lia]).
Qed.
Print Assumptions C69_shared.

(** Every name a document holds is the literal of a name token, and so reads the caller's buffer. *)
Lemma within_in {A} (l m : list A) : within l m -> forall x, In x l -> In x m.
Proof. induction 1 as [|y l m H IH|y l m H IH]; intros x Hx; [destruct Hx|right; apply IH, Hx|]. destruct Hx as [->|Hx]; [left; reflexivity|right; apply IH, Hx]. Qed.
Theorem C69_document : forall fok i d ms, parse fok i = Doc d -> in_memory i ms ->
  within (document_texts (doc_defs d)) (map (fun m => (mkind m, held i (mlit m))) ms) /\
  forall n, In (KName, n) (document_texts (doc_defs d)) -> exists m k, In m ms /\ mkind m = KName /\ held i (mlit m) = n /\ reads m k.
Proof.
  intros fok i d ms Hp Hm. pose proof (C65_texts fok i d _ Hp (proj1 (memory_facts i ms Hm))) as W. rewrite map_map in W. split; [exact W|].
  intros n Hn. apply (within_in _ _ W) in Hn. apply in_map_iff in Hn as (m & E & Hin). injection E as E1 E2. destruct (C69_shared i ms m Hm Hin (or_introl E1)) as (k & Hk). exists m, k. auto.
Qed.
Print Assumptions C69_document.

(** So a caller that reuses the buffer changes the tokens (and the names of the document) it has got. *)
Theorem C69_kept_refuted : exists i i' ms m, in_memory i ms /\ In m ms /\ List.length i' = List.length i /\
  seen i m = mkTok KName (B "admin") 1 3 /\ seen i' m = mkTok KName (B "guest") 1 3.
Proof.
  exists (B "{ admin }"), (B "{ guest }"). eexists. exists (mkM KName (Buffer 2 7) 1 3). split; [eexists; vm_compute; reflexivity|]. split; [right; left; reflexivity|]. repeat split.
Qed.
Print Assumptions C69_kept_refuted.
(** A case with every sort of literal: a name, a punctuator, numbers, strings of both sorts, with and without memory of their own. *)
Example C69_nonvacuous : exists ms, in_memory (B "a ... : -12 3e4 ""b"" ""\n"" """""" c """""" """"""d" ++ [ascii_of_nat 10] ++ B "e""""""") ms /\
  map mlit ms = [Buffer 0 1; Own (B "..."); Buffer 6 7; Buffer 8 11; Buffer 12 15; Buffer 17 18; Own [ascii_of_nat 10]; Buffer 28 31; Own (B "d" ++ [ascii_of_nat 10] ++ B "e"); Own []].
Proof. eexists. split; [eexists; vm_compute; reflexivity|]. vm_compute. reflexivity. Qed.
