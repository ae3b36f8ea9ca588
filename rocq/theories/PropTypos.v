(** * PropTypos: theorem C67 (suggestions and typing errors). *)
From Coq Require Import Permutation.
From Verif Require Import Base Utf8 AST Context Utils Errors Suggest PropErrors PropSuggest Edits.

(** How far an option may be from the input: half the length (in bytes) of the longer one, and one at least. *)
Definition tolerance (a b : bytes) : nat := Nat.max 1 (Nat.max (List.length a / 2) (List.length b / 2)).
Lemma tolerance_sym a b : tolerance a b = tolerance b a. Proof. unfold tolerance. lia. Qed.

Section C67.
  (** [lower]: strings.ToLower; [lev]: any implementation of the edit distance. *)
  Variables (lower : bytes -> bytes) (lev : bytes -> bytes -> Z).
  Hypothesis lev_ok : computes_distance lev.
  (** Which options are suggested, in terms of edits: *)
  Theorem C67_suggested_iff input options out o : suggestion_list lower lev input options out ->
    (In o out <-> In o options /\ exists n, n <= tolerance input o /\ edits n (characters (lower input)) (characters (lower o))).
  Proof.
    intros H. rewrite (proj1 (C42_selection lower lev input options out o H)). unfold close.
    assert (T : Z.of_nat (tolerance input o) = Z.max 1 (Z.max (Z.of_nat (List.length input / 2)) (Z.of_nat (List.length o / 2)))) by (unfold tolerance; lia). rewrite <- T.
    destruct (lev_ok (lower input) (lower o)) as (n & En & Dn). split; intros [Ho X]; (split; [exact Ho|]).
    - destruct X as (d & [[-> ->]|[(N & E & ->)|(N & ->)]] & L).
      + exists 0. split; [lia|apply es_none].
      + exists 0. split; [lia|]. rewrite E. apply es_none.
      + exists n. split; [lia|apply Dn].
    - destruct X as (m & L & Em). pose proof (proj2 Dn m Em) as Ln. destruct (list_eq_dec Ascii.ascii_dec input o) as [->|N]; [exists 0%Z; split; [left; auto|lia]|].
      destruct (list_eq_dec Ascii.ascii_dec (lower input) (lower o)) as [E|E]; [exists 1%Z; split; [right; left; auto|unfold tolerance; lia]|].
      exists (lev (lower input) (lower o)). split; [right; right; auto|lia].
  Qed.
  (** so one typing error is always forgiven, *)
  Theorem C67_one_typo input options out o : suggestion_list lower lev input options out -> In o options ->
    edit (characters (lower input)) (characters (lower o)) \/ lower input = lower o -> In o out.
  Proof.
    intros H Ho E. apply (C67_suggested_iff _ _ _ _ H). split; [exact Ho|]. destruct E as [E|E]; [exists 1|exists 0]; (split; [unfold tolerance; lia|]); [apply edits_one, E|rewrite E; apply es_none].
  Qed.
  (** an option too long or too short is never suggested, *)
  Theorem C67_length input options out o : suggestion_list lower lev input options out -> In o out ->
    List.length (characters (lower o)) <= List.length (characters (lower input)) + tolerance input o /\
    List.length (characters (lower input)) <= List.length (characters (lower o)) + tolerance input o.
  Proof. intros H Ho. apply (C67_suggested_iff _ _ _ _ H) in Ho. destruct Ho as (_ & n & L & E). apply edits_length in E. lia. Qed.
  (** and to be suggested is mutual. *)
  Theorem C67_mutual a b options out options' out' : suggestion_list lower lev a options out -> suggestion_list lower lev b options' out' -> In b options -> In a options' -> (In b out <-> In a out').
  Proof.
    intros H H' Hb Ha. rewrite (C67_suggested_iff _ _ _ _ H), (C67_suggested_iff _ _ _ _ H'), (tolerance_sym b a).
    split; intros (_ & n & L & E); (split; [assumption|]); exists n; (split; [exact L|apply edits_sym, E]).
  Qed.
  (** An option that differs in case only comes before all that differ otherwise in more than one edit, and an equal one before all. *)
  Theorem C67_case_first input options out p x m y s : suggestion_list lower lev input options out -> out = p ++ x :: m ++ y :: s ->
    lower y = lower input -> lower x <> lower input -> edit (characters (lower input)) (characters (lower x)) \/ characters (lower x) = characters (lower input).
  Proof.
    intros H E Ey Ex. apply C42_exact in H. destruct H as [_ H]. destruct (lev_ok (lower input) (lower x)) as (n & En & Dn).
    assert (Dx : distance_is lower lev input x (lev (lower input) (lower x))) by (right; right; split; [congruence|reflexivity]).
    assert (Dy : exists d, distance_is lower lev input y d /\ (d <= 1)%Z).
    { destruct (list_eq_dec Ascii.ascii_dec input y) as [Q|N]; [exists 0%Z; split; [left; auto|lia]|exists 1%Z; split; [right; left; auto|lia]]. }
    destruct Dy as (d & Dy & Ld). pose proof (H p x m y s _ _ E Dx Dy) as K. assert (L : n <= 1) by lia. destruct Dn as [Dn _]. destruct n as [|[|n]]; [right; inversion Dn; congruence| |lia].
    left. inversion Dn as [|n a b c D0 D1]; subst. inversion D0; subst. exact D1.
  Qed.
End C67.
Print Assumptions C67_suggested_iff. Print Assumptions C67_one_typo. Print Assumptions C67_length. Print Assumptions C67_mutual. Print Assumptions C67_case_first.
(** The comment on lexicalDistance says that a swap of two adjacent characters is one edit.  It is two: *)
Theorem C67_swap_refuted lev : computes_distance lev -> lexical_distance (fun x => x) lev (B "ab") (B "ba") = 2%Z /\
  forall options out, suggestion_list (fun x => x) lev (B "ab") options out -> ~ In (B "ba") out.
Proof.
  intros L. assert (C : characters (B "ab") = [97; 98]%Z /\ characters (B "ba") = [98; 97]%Z) by (split; reflexivity). destruct C as [Ca Cb].
  assert (D : forall n, edit_distance [97; 98]%Z [98; 97]%Z n -> n = 2) by (intros n H; apply (distance_fun _ _ _ _ H (distance_exact [97; 98]%Z [98; 97]%Z))).
  split.
  - destruct (L (B "ab") (B "ba")) as (n & En & Dn). rewrite Ca, Cb in Dn. apply D in Dn. subst n. unfold lexical_distance. replace (beqb (B "ab") (B "ba")) with false by reflexivity. cbv zeta. exact En.
  - intros options out H Hi. apply (C67_suggested_iff _ _ L _ _ _ _ H) in Hi. destruct Hi as (_ & n & Ln & E). rewrite Ca, Cb in E. change (tolerance (B "ab") (B "ba")) with 1 in Ln.
    pose proof (proj2 (distance_exact [97; 98]%Z [98; 97]%Z) n E) as K. change (distance [97; 98]%Z [98; 97]%Z) with 2 in K. lia.
Qed.
Print Assumptions C67_swap_refuted.
(** The recursion of Edits.v keeps the promise; a sample, with typing errors of each sort. *)
Definition true_distance (a b : bytes) : Z := Z.of_nat (distance (characters a) (characters b)).
Example C67_nonvacuous : computes_distance true_distance /\
  (forall out, suggestion_list (fun x => x) true_distance (B "naem") (map B ["name"; "nam"; "naems"; "id"; "naeme"]%string) out ->
     Forall (fun o => In (B o) out) ["name"; "nam"; "naems"; "naeme"]%string /\ ~ In (B "id") out).
Proof.
  split; [intros a b; exists (distance (characters a) (characters b)); split; [reflexivity|apply distance_exact]|].
  assert (L : computes_distance true_distance) by (intros a b; exists (distance (characters a) (characters b)); split; [reflexivity|apply distance_exact]).
  intros out H. split.
  - assert (X : forall o, In o ["name"; "nam"; "naems"; "naeme"]%string -> (distance (characters (B "naem")) (characters (B o)) <= tolerance (B "naem") (B o))) by (intros o Ho; repeat (destruct Ho as [<-|Ho]; [vm_compute; lia|]); destruct Ho).
    apply Forall_forall. intros o Ho. apply (C67_suggested_iff _ _ L _ _ _ _ H). split; [apply in_map; destruct Ho as [<-|[<-|[<-|[<-|[]]]]]; cbn; tauto|]. eexists. split; [apply X, Ho|apply distance_exact].
  - intros Hi. apply (C67_suggested_iff _ _ L _ _ _ _ H) in Hi. destruct Hi as (_ & n & Ln & E). pose proof (proj2 (distance_exact _ _) n E) as K. vm_compute in K. vm_compute in Ln. lia.
Qed.
