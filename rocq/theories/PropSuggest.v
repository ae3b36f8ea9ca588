(** * PropSuggest: C41, C42 — lists of alternatives and suggestions. *)
From Coq Require Import Permutation.
From Verif Require Import Base AST Context Utils Errors SdlProofs Suggest PropErrors.

(** ** C41 *)
Theorem C41_exact a b c d e rest :
  or_list [] = GPanic /\ or_list [a] = GOk a /\ or_list [a; b] = GOk (a ++ B " or " ++ b) /\
  or_list [a; b; c] = GOk (a ++ B ", " ++ b ++ B ", or " ++ c) /\ or_list [a; b; c; d] = GOk (a ++ B ", " ++ b ++ B ", " ++ c ++ B ", or " ++ d) /\
  or_list (a :: b :: c :: d :: e :: rest) = GOk (a ++ B ", " ++ b ++ B ", " ++ c ++ B ", " ++ d ++ B ", or " ++ e).
Proof.
  unfold or_list. assert (A : forall x y z w : bytes, (x ++ B ", " ++ y) ++ z = x ++ B ", " ++ y ++ z) by (intros; rewrite <- !app_assoc; reflexivity).
  split; [reflexivity|]. split; [reflexivity|]. split; [reflexivity|]. split; [cbn [List.length Nat.eqb Nat.ltb Nat.leb Nat.sub firstn nth joinb]; rewrite <- !app_assoc; reflexivity|].
  split; [cbn [List.length Nat.eqb Nat.ltb Nat.leb Nat.sub firstn nth joinb]; rewrite <- !app_assoc; reflexivity|].
  destruct rest as [|f rest]; cbn [List.length Nat.eqb Nat.ltb Nat.leb Nat.sub firstn nth joinb]; rewrite <- !app_assoc; reflexivity.
Qed.
(** Only the first five items matter; it panics on the empty list only. *)
Theorem C41_first_five items : or_list items = or_list (firstn 5 items).
Proof. destruct items as [|a [|b [|c [|d [|e rest]]]]]; try reflexivity. cbn [firstn]. rewrite (proj2 (proj2 (proj2 (proj2 (proj2 (C41_exact a b c d e rest)))))), (proj2 (proj2 (proj2 (proj2 (proj2 (C41_exact a b c d e [])))))). reflexivity. Qed.
Theorem C41_panics_iff items : or_list items = GPanic <-> items = [].
Proof. split; [|intros ->; reflexivity]. destruct items as [|a [|b [|c items]]]; try discriminate; [reflexivity|]. unfold or_list. cbn [List.length Nat.eqb]. destruct (5 <? _)%nat; discriminate. Qed.
Lemma quote_from_spec n : forall pre items, List.length items = n -> quote_from n (List.length pre) (pre ++ items) = pre ++ map (fun x => quote ++ x ++ quote) items.
Proof.
  induction n as [|n IH]; intros pre items H; destruct items as [|x items]; try discriminate; [reflexivity|]. cbn [quote_from map]. rewrite firstn_app, firstn_all, Nat.sub_diag. cbn [firstn]. rewrite app_nil_r. rewrite app_nth2, Nat.sub_diag by lia. cbn [nth].
  replace (S (List.length pre)) with (List.length (pre ++ [x])) by (rewrite app_length; cbn; lia). change (pre ++ x :: items) with (pre ++ [x] ++ items). rewrite (app_assoc pre [x]), skipn_app, skipn_all, Nat.sub_diag. cbn [skipn app].
  replace (pre ++ (quote ++ x ++ quote) :: items) with ((pre ++ [quote ++ x ++ quote]) ++ items) by (rewrite <- app_assoc; reflexivity). replace (List.length (pre ++ [x])) with (List.length (pre ++ [quote ++ x ++ quote])) by (rewrite !app_length; reflexivity).
  rewrite IH by (cbn in H; lia). rewrite <- app_assoc. reflexivity.
Qed.
(** QuotedOrList gives what OrList gives on the quoted items … *)
Theorem C41_quoted_exact items : snd (quoted_or_list items) = or_list (map (fun x => quote ++ x ++ quote) items).
Proof. unfold quoted_or_list. cbn [snd]. pose proof (quote_from_spec (List.length items) [] items eq_refl) as E. cbn [app List.length] in E. rewrite E. reflexivity. Qed.
(** … and leaves every item of the caller's slice quoted: a second call on the same slice doubles the quotation marks. *)
Theorem C41_quoted_keeps_argument_refuted items : fst (quoted_or_list items) = map (fun x => quote ++ x ++ quote) items /\ (items <> [] -> fst (quoted_or_list items) <> items).
Proof.
  assert (E : fst (quoted_or_list items) = map (fun x => quote ++ x ++ quote) items).
  { unfold quoted_or_list. cbn [fst]. pose proof (quote_from_spec (List.length items) [] items eq_refl) as E. cbn [app List.length] in E. exact E. }
  split; [exact E|]. rewrite E. destruct items as [|x items]; [congruence|]. intros _ H. cbn [map] in H. assert (X : quote ++ x ++ quote = x) by congruence. apply (f_equal (@List.length _)) in X. rewrite !app_length in X. cbn in X. lia.
Qed.
Example C41_nonvacuous : or_list (map B ["A"; "B"; "C"; "D"; "E"; "F"]%string) = GOk (B "A, B, C, D, or E") /\ quoted_or_list (map B ["A"; "B"]%string) = (map B ["""A"""; """B"""]%string, GOk (B """A"" or ""B""")).
Proof. split; vm_compute; reflexivity. Qed.

(** ** C42 *)
Section C42.
  Variables (lower : bytes -> bytes) (lev : bytes -> bytes -> Z).
  (** 0 for equal strings, 1 for strings that differ in case only, the edit distance of the lower-case strings otherwise *)
  Definition distance_is (a b : bytes) (d : Z) : Prop :=
    a = b /\ d = 0%Z \/ a <> b /\ lower a = lower b /\ d = 1%Z \/ lower a <> lower b /\ d = lev (lower a) (lower b).
  Definition close (input o : bytes) (d : Z) : Prop := distance_is input o d /\ (d <= Z.max 1 (Z.max (Z.of_nat (List.length input / 2)) (Z.of_nat (List.length o / 2))))%Z.

  Lemma distance_spec a b d : distance_is a b d <-> d = lexical_distance lower lev a b.
  Proof.
    unfold distance_is, lexical_distance. destruct (beqb_spec a b) as [->|N]; [|destruct (beqb_spec (lower a) (lower b)) as [E|N2]]; cbv zeta.
    - split; [intros [[_ H]|[[N _]|[N _]]]; [exact H|congruence|congruence]|intros ->; left; auto].
    - rewrite E. replace (beqb (lower b) (lower b)) with true by (destruct (beqb_spec (lower b) (lower b)); congruence). split; [intros [[H _]|[(_ & _ & H)|[H _]]]; congruence|intros ->; right; left; auto].
    - destruct (beqb_spec (lower a) (lower b)); [congruence|]. split; [intros [[H _]|[(_ & H & _)|[_ H]]]; congruence|intros ->; right; right; auto].
  Qed.
  Definition threshold (input o : bytes) : Z := Z.max 1 (Z.max (Z.of_nat (List.length input / 2)) (Z.of_nat (List.length o / 2))).
  Lemma options_spec input options o : mget o (options_by_distance lower lev input options) =
    if existsb (beqb o) options && (lexical_distance lower lev input o <=? threshold input o)%Z then Some (lexical_distance lower lev input o) else None.
  Proof.
    unfold options_by_distance. cbv zeta. set (f := fun m option => _).
    assert (F : forall m x, f m x = if (lexical_distance lower lev input x <=? threshold input x)%Z then mset x (lexical_distance lower lev input x) m else m).
    { intros m x. unfold f. match goal with |- (if (_ <=? ?t)%Z then _ else _) = _ => replace t with (threshold input x) end; [reflexivity|]. unfold threshold. destruct (Z.of_nat (List.length input / 2) <? Z.of_nat (List.length x / 2))%Z eqn:E; match goal with |- context [(if ?b then _ else _)] => destruct b eqn:E2 end; lia. }
    clearbody f. assert (G : forall l m, mget o (fold_left f l m) = if existsb (beqb o) l && (lexical_distance lower lev input o <=? threshold input o)%Z then Some (lexical_distance lower lev input o) else mget o m).
    { induction l as [|x l IH]; intros m; [reflexivity|]. cbn [fold_left existsb]. rewrite IH, F. destruct (lexical_distance lower lev input x <=? threshold input x)%Z eqn:E; [rewrite mget_mset|]; destruct (beqb_spec o x) as [->|N]; cbn [orb].
      - rewrite E. cbn [andb]. destruct (existsb (beqb x) l); reflexivity.
      - reflexivity.
      - rewrite E, andb_false_r. reflexivity.
      - reflexivity. }
    rewrite G. reflexivity.
  Qed.
  Lemma suggestion_spec input options out : suggestion_list lower lev input options out <->
    (exists sel, Permutation sel out /\ sel = filter (fun o => if Z_le_dec (lexical_distance lower lev input o) (threshold input o) then true else false) options) /\
    forall a x b y c dx dy, out = a ++ x :: b ++ y :: c -> distance_is input x dx -> distance_is input y dy -> (dx < dy)%Z \/ dx = dy /\ List.length y <= List.length x.
  Proof.
    unfold suggestion_list, slice_sorted. cbv zeta. set (m := options_by_distance lower lev input options).
    assert (Fe : filter (fun o => mem o m) options = filter (fun o => if Z_le_dec (lexical_distance lower lev input o) (threshold input o) then true else false) options).
    { apply filter_ext_in. intros o Ho. unfold mem, m. rewrite options_spec. assert (X : existsb (beqb o) options = true) by (apply existsb_exists; exists o; split; [exact Ho|destruct (beqb_spec o o); congruence]). rewrite X. cbn [andb].
      destruct (Z_le_dec (lexical_distance lower lev input o) (threshold input o)) as [L|L]; [replace (lexical_distance lower lev input o <=? threshold input o)%Z with true by lia|replace (lexical_distance lower lev input o <=? threshold input o)%Z with false by lia]; reflexivity. }
    rewrite Fe. set (sel := filter _ options). assert (D : Permutation sel out -> forall x, In x out -> mget x m = Some (lexical_distance lower lev input x)).
    { intros P x Hx. apply (Permutation_in _ (Permutation_sym P)) in Hx. unfold sel in Hx. rewrite <- Fe in Hx. apply filter_In in Hx. destruct Hx as [_ Hx]. unfold mem in Hx. unfold m in *. rewrite options_spec in *. destruct (_ && _); [reflexivity|discriminate]. }
    split.
    - intros [P H]. split; [exists sel; split; [exact P|reflexivity]|]. intros a x b y c dx dy E Dx Dy. apply distance_spec in Dx. apply distance_spec in Dy. subst dx dy. specialize (H a x b y c E).
      unfold by_distance in H. rewrite !(D P) in H by (subst out; rewrite !in_app_iff; cbn; rewrite ?in_app_iff; cbn; auto). destruct (Z.eqb_spec (lexical_distance lower lev input y) (lexical_distance lower lev input x)) as [Ed|Ed]; [right|left; lia]. split; [lia|]. apply Nat.ltb_ge in H. lia.
    - intros [(sel' & P & ->) H]. fold sel in P. split; [exact P|]. intros a x b y c E. pose proof (H a x b y c _ _ E (proj2 (distance_spec _ _ _) eq_refl) (proj2 (distance_spec _ _ _) eq_refl)) as K.
      unfold by_distance. rewrite !(D P) by (subst out; rewrite !in_app_iff; cbn; rewrite ?in_app_iff; cbn; auto). destruct (Z.eqb_spec (lexical_distance lower lev input y) (lexical_distance lower lev input x)) as [Ed|Ed]; [apply Nat.ltb_ge; lia|apply Z.ltb_ge; lia].
  Qed.
  (** The result: the options that are close enough, each as often as it is given, by increasing distance, longer ones first among equally distant ones. *)
  Theorem C42_exact input options out : suggestion_list lower lev input options out <->
    (exists near : bytes -> bool, (forall o, near o = true <-> exists d, close input o d) /\ Permutation (filter near options) out) /\
    forall a x b y c dx dy, out = a ++ x :: b ++ y :: c -> distance_is input x dx -> distance_is input y dy -> (dx < dy)%Z \/ dx = dy /\ List.length y <= List.length x.
  Proof.
    assert (N : forall o, (exists d, close input o d) <-> (lexical_distance lower lev input o <= threshold input o)%Z).
    { intros o. unfold close. split; [intros (d & Hd & Hl); apply distance_spec in Hd; subst d; exact Hl|intros H; exists (lexical_distance lower lev input o); split; [apply distance_spec; reflexivity|exact H]]. }
    rewrite suggestion_spec. split; intros [H1 H2]; (split; [|exact H2]).
    - destruct H1 as (sel & P & ->). eexists. split; [|exact P]. intros o. rewrite N. destruct (Z_le_dec _ _); intuition congruence.
    - destruct H1 as (near & Hn & P). eexists. split; [exact P|]. apply filter_ext. intros o. specialize (Hn o). rewrite N in Hn. destruct (Z_le_dec _ _), (near o); intuition congruence.
  Qed.
  (** The same, as membership with multiplicity. *)
  Theorem C42_selection input options out o : suggestion_list lower lev input options out ->
    (In o out <-> In o options /\ exists d, close input o d) /\ (In o out -> count_occ (list_eq_dec Ascii.ascii_dec) out o = count_occ (list_eq_dec Ascii.ascii_dec) options o).
  Proof.
    intros H. apply suggestion_spec in H. destruct H as [(sel & P & E) _]. assert (I : In o out <-> In o sel) by (split; [apply Permutation_in, Permutation_sym, P|apply Permutation_in, P]).
    assert (S : In o sel <-> In o options /\ (lexical_distance lower lev input o <= threshold input o)%Z) by (rewrite E, filter_In; destruct (Z_le_dec _ _); intuition congruence).
    split.
    - rewrite I, S. unfold close. split; intros [H1 H2]; (split; [exact H1|]); [exists (lexical_distance lower lev input o); split; [apply distance_spec; reflexivity|exact H2]|]. destruct H2 as (d & Hd & Hl). apply distance_spec in Hd. subst d. exact Hl.
    - rewrite I, S. intros [_ L]. rewrite <- (proj1 (Permutation_count_occ (list_eq_dec Ascii.ascii_dec) sel out) P o), E. clear - L. induction options as [|x l IH]; [reflexivity|]. cbn [filter count_occ]. destruct (Z_le_dec (lexical_distance lower lev input x) (threshold input x)) as [Lx|Lx].
      + cbn [count_occ]. rewrite IH. reflexivity.
      + destruct (list_eq_dec Ascii.ascii_dec x o) as [->|]; [lia|exact IH].
  Qed.
  (** A given option that equals the input comes first, whenever different lower-case strings have a positive distance. *)
  Theorem C42_exact_match_first input options out : (forall a b, a <> b -> (1 <= lev a b)%Z) -> In input options -> suggestion_list lower lev input options out -> exists rest, out = input :: rest.
  Proof.
    intros Hl Hi H. assert (D0 : distance_is input input 0) by (left; auto). assert (Ho : In input out) by (apply (C42_selection _ _ _ _ H); split; [exact Hi|]; exists 0%Z; split; [exact D0|lia]).
    apply suggestion_spec in H. destruct H as [_ H]. apply in_split in Ho. destruct Ho as (p & s & ->). destruct p as [|x p]; [exists s; reflexivity|].
    destruct (list_eq_dec Ascii.ascii_dec x input) as [->|N]; [eexists; reflexivity|]. exfalso.
    assert (Dx : exists d, distance_is input x d /\ (1 <= d)%Z).
    { destruct (list_eq_dec Ascii.ascii_dec (lower input) (lower x)) as [E|E]; [exists 1%Z; split; [right; left; repeat split; auto|lia]|exists (lev (lower input) (lower x)); split; [right; right; auto|apply Hl, E]]. }
    destruct Dx as (d & Dx & Ld). destruct (H [] x p input s d 0%Z eq_refl Dx D0); lia.
  Qed.
End C42.
(** sort.Slice always has something to return here. *)
Lemma insert_sorted {X} (less : X -> X -> bool) (x : X) l : (forall x y z, less y x = false -> less z y = false -> less z x = false) -> (forall x y, less x y = true -> less y x = false) ->
  (forall a u b v c, l = a ++ u :: b ++ v :: c -> less v u = false) -> exists out, Permutation (x :: l) out /\ forall a u b v c, out = a ++ u :: b ++ v :: c -> less v u = false.
Proof.
  intros Tr As. induction l as [|y l IH]; intros S.
  - exists [x]. split; [apply Permutation_refl|]. intros [|? [|? a]] u b v c E; [injection E as _ E; destruct b; discriminate|discriminate|discriminate].
  - destruct (less y x) eqn:L.
    + destruct IH as (out & P & So); [intros a u b v c ->; apply (S (y :: a) u b v c); reflexivity|]. exists (y :: out). split; [eapply Permutation_trans; [apply perm_swap|apply perm_skip, P]|].
      intros [|z a] u b v c E; [|injection E as _ E; apply (So a u b v c E)]. injection E as <- E. assert (Hv : In v (x :: l)) by (eapply Permutation_in; [apply Permutation_sym, P|]; rewrite E; apply in_or_app; right; left; reflexivity).
      destruct Hv as [<-|Hv]; [apply As, L|]. apply in_split in Hv. destruct Hv as (a' & c' & E'). apply (S [] y a' v c'). rewrite E'. reflexivity.
    + exists (x :: y :: l). split; [apply Permutation_refl|]. intros [|z a] u b v c E; [|injection E as _ E; apply (S a u b v c E)]. injection E as <- E. destruct b as [|w b]; [injection E as <- _; exact L|]. injection E as <- E. apply (Tr x y v L), (S [] y b v c). rewrite E. reflexivity.
Qed.
Lemma slice_sorted_exists {X} (less : X -> X -> bool) l : (forall x y z, less y x = false -> less z y = false -> less z x = false) -> (forall x y, less x y = true -> less y x = false) -> exists out, slice_sorted less l out.
Proof.
  intros Tr As. induction l as [|x l (out & P & S)]; [exists []; split; [constructor|]; intros a u b v c E; destruct a; discriminate|].
  destruct (insert_sorted less x out Tr As S) as (o & P2 & S2). exists o. split; [eapply Permutation_trans; [apply perm_skip, P|exact P2]|exact S2].
Qed.
(** (C38) SortErrors always returns. *)
Theorem C38_returns errs : exists out, sort_errors errs out.
Proof.
  destruct (slice_sorted_exists (fun a b => bytes_lt (marshal a) (marshal b)) errs) as (sl & H).
  - intros x y z. apply bytes_le_trans.
  - intros x y H. destruct (bytes_lt (marshal y) (marshal x)) eqn:E; [|reflexivity]. exfalso. revert H E. generalize (marshal x) (marshal y). intros a. induction a as [|u a IH]; intros [|v b] H E; try discriminate. cbn [bytes_lt] in H, E.
    destruct (Z.eq_dec (zb u) (zb v)) as [Q|Q]; [|lia]. rewrite Q, Z.ltb_irrefl, Z.eqb_refl in H, E. exact (IH b H E).
  - eexists. exists sl. split; [exact H|reflexivity].
Qed.
Theorem C42_returns lower lev input options : exists out, suggestion_list lower lev input options out.
Proof.
  apply slice_sorted_exists; unfold by_distance; cbv zeta; intros x y.
  - intros z. destruct (Z.eqb_spec (match mget y (options_by_distance lower lev input options) with Some d => d | None => 0%Z end) (match mget x (options_by_distance lower lev input options) with Some d => d | None => 0%Z end));
    destruct (Z.eqb_spec (match mget z (options_by_distance lower lev input options) with Some d => d | None => 0%Z end) (match mget y (options_by_distance lower lev input options) with Some d => d | None => 0%Z end));
    destruct (Z.eqb_spec (match mget z (options_by_distance lower lev input options) with Some d => d | None => 0%Z end) (match mget x (options_by_distance lower lev input options) with Some d => d | None => 0%Z end));
    rewrite ?Nat.ltb_ge, ?Z.ltb_ge; intros; lia.
  - rewrite (Z.eqb_sym (match mget y _ with Some d => d | None => _ end)). destruct (Z.eqb_spec (match mget x (options_by_distance lower lev input options) with Some d => d | None => 0%Z end) (match mget y (options_by_distance lower lev input options) with Some d => d | None => 0%Z end)).
    + intros H. apply Nat.ltb_lt in H. apply Nat.ltb_ge. lia.
    + intros H. apply Z.ltb_lt in H. apply Z.ltb_ge. lia.
Qed.
Example C42_nonvacuous : let lev := fun a b : bytes => Z.abs (Z.of_nat (List.length a) - Z.of_nat (List.length b)) in
  suggestion_list (fun x => x) lev (B "abc") (map B ["a"; "ab"; "abc"; "ab"]%string) (map B ["abc"; "ab"; "ab"]%string) /\ mem (B "a") (options_by_distance (fun x => x) lev (B "abc") [B "a"]) = false.
Proof.
  split; [|reflexivity]. split; [vm_compute; change (Permutation (map B ["ab"; "abc"; "ab"]%string) (map B ["abc"; "ab"; "ab"]%string)); apply perm_swap|].
  intros a x b y c E. destruct a as [|a1 [|a2 [|a3 a]]]; cbn [map app] in E.
  - destruct b as [|b1 [|b2 b]]; cbn [app] in E; [assert (x = B "abc") by congruence; assert (y = B "ab") by congruence; subst; reflexivity|assert (x = B "abc") by congruence; assert (y = B "ab") by congruence; subst; reflexivity|destruct b; discriminate E].
  - destruct b as [|b1 b]; cbn [app] in E; [assert (x = B "ab") by congruence; assert (y = B "ab") by congruence; subst; reflexivity|destruct b; discriminate E].
  - destruct b; discriminate E.
  - destruct a; discriminate E.
Qed.
Print Assumptions C42_exact. Print Assumptions C41_exact.
