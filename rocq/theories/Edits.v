(** * Edits: edit distance (the specification for C67), and that the usual recursion computes it. *)
From Verif Require Import Base Utf8.

(** ** Specification *)
(** One edit: insert, delete or replace a character. *)
Inductive edit : list Z -> list Z -> Prop :=
| ed_insert x l : edit l (x :: l)
| ed_delete x l : edit (x :: l) l
| ed_replace x y l : edit (x :: l) (y :: l)
| ed_further x l l' : edit l l' -> edit (x :: l) (x :: l').
Inductive edits : nat -> list Z -> list Z -> Prop :=
| es_none l : edits 0 l l
| es_more n a b c : edits n a b -> edit b c -> edits (S n) a c.
(** The least number of edits that make [b] of [a]. *)
Definition edit_distance (a b : list Z) (n : nat) : Prop := edits n a b /\ forall m, edits m a b -> n <= m.
(** The characters of a string, as Go's conversion to []rune gives them. *)
Fixpoint characters_from (fuel : nat) (s : bytes) : list Z :=
  match fuel, s with S f, _ :: _ => let '(r, w) := decode_rune s in r :: characters_from f (skipn w s) | _, _ => [] end.
Definition characters (s : bytes) : list Z := characters_from (List.length s) s.
(** What [levenshtein.ComputeDistance] promises (the package is not in the repository). *)
Definition computes_distance (lev : bytes -> bytes -> Z) : Prop :=
  forall a b, exists n, lev a b = Z.of_nat n /\ edit_distance (characters a) (characters b) n.

(** ** Facts *)
Lemma edit_sym a b : edit a b -> edit b a.
Proof. induction 1; [apply ed_delete|apply ed_insert|apply ed_replace|apply ed_further; assumption]. Qed.
Lemma edits_trans n m a b c : edits n a b -> edits m b c -> edits (n + m) a c.
Proof.
  intros H H'. induction H' as [l|m a' b' c' H1 IH H2]; [rewrite Nat.add_0_r; exact H|]. rewrite Nat.add_succ_r. eapply es_more; [apply IH, H|exact H2].
Qed.
Lemma edits_one a b : edit a b -> edits 1 a b.
Proof. intros H. eapply es_more; [apply es_none|exact H]. Qed.
Lemma edits_sym n a b : edits n a b -> edits n b a.
Proof.
  induction 1 as [l|n a b c H IH H']; [apply es_none|]. apply edit_sym, edits_one in H'. change (S n) with (1 + n). eapply edits_trans; [exact H'|exact IH].
Qed.
Lemma edits_cons n x a b : edits n a b -> edits n (x :: a) (x :: b).
Proof. induction 1 as [l|n a b c H IH H']; [apply es_none|]. eapply es_more; [exact IH|apply ed_further, H']. Qed.
Lemma edits_length n a b : edits n a b -> List.length b <= List.length a + n /\ List.length a <= List.length b + n.
Proof.
  induction 1 as [l|n a b c H IH H']; [lia|]. assert (L : List.length c <= S (List.length b) /\ List.length b <= S (List.length c)) by (clear - H'; induction H'; cbn [List.length]; lia). lia.
Qed.
Lemma distance_fun a b n m : edit_distance a b n -> edit_distance a b m -> n = m.
Proof. intros [H1 H2] [H3 H4]. specialize (H2 m H3). specialize (H4 n H1). lia. Qed.
Lemma distance_sym a b n : edit_distance a b n -> edit_distance b a n.
Proof. intros [H1 H2]. split; [apply edits_sym, H1|]. intros m Hm. apply H2, edits_sym, Hm. Qed.
Lemma distance_zero a b : edit_distance a b 0 <-> a = b.
Proof. split; [intros [H _]; inversion H; reflexivity|]. intros ->. split; [apply es_none|lia]. Qed.

(** Two texts side by side, with [n] differences. *)
Inductive aligned : list Z -> list Z -> nat -> Prop :=
| al_end : aligned [] [] 0
| al_same x a b n : aligned a b n -> aligned (x :: a) (x :: b) n
| al_replace x y a b n : aligned a b n -> aligned (x :: a) (y :: b) (S n)
| al_delete x a b n : aligned a b n -> aligned (x :: a) b (S n)
| al_insert y a b n : aligned a b n -> aligned a (y :: b) (S n).
Lemma aligned_edits a b n : aligned a b n -> edits n a b.
Proof.
  induction 1 as [|x a b n H IH|x y a b n H IH|x a b n H IH|y a b n H IH].
  - apply es_none.
  - apply edits_cons, IH.
  - eapply es_more; [apply (edits_cons n x), IH|apply ed_replace].
  - eapply es_more; [apply (edits_cons n x), IH|apply ed_delete].
  - eapply es_more; [exact IH|apply ed_insert].
Qed.
Lemma aligned_edit a b n : aligned a b n -> forall c, edit b c -> exists m, m <= S n /\ aligned a c m.
Proof.
  induction 1 as [|x a b n H IH|x y a b n H IH|x a b n H IH|y a b n H IH]; intros c E.
  - inversion E; subst. exists 1. split; [lia|]. apply al_insert, al_end.
  - inversion E; subst.
    + exists (S n). split; [lia|]. apply al_insert, al_same, H.
    + exists (S n). split; [lia|]. apply al_delete, H.
    + exists (S n). split; [lia|]. apply al_replace, H.
    + destruct (IH l') as (m & L & A); [assumption|]. exists m. split; [lia|]. apply al_same, A.
  - inversion E; subst.
    + exists (S (S n)). split; [lia|]. apply al_insert, al_replace, H.
    + exists (S n). split; [lia|]. apply al_delete, H.
    + exists (S n). split; [lia|]. apply al_replace, H.
    + destruct (IH l') as (m & L & A); [assumption|]. exists (S m). split; [lia|]. apply al_replace, A.
  - destruct (IH c E) as (m & L & A). exists (S m). split; [lia|]. apply al_delete, A.
  - inversion E; subst.
    + exists (S (S n)). split; [lia|]. apply al_insert, al_insert, H.
    + exists n. split; [lia|]. exact H.
    + exists (S n). split; [lia|]. apply al_insert, H.
    + destruct (IH l') as (m & L & A); [assumption|]. exists (S m). split; [lia|]. apply al_insert, A.
Qed.
Lemma aligned_self a : aligned a a 0.
Proof. induction a; constructor; assumption. Qed.
Lemma edits_aligned n a b : edits n a b -> exists m, m <= n /\ aligned a b m.
Proof.
  induction 1 as [l|n a b c H (m & L & A) H']; [exists 0; split; [lia|apply aligned_self]|]. destruct (aligned_edit a b m A c H') as (k & Lk & Ak). exists k. split; [lia|exact Ak].
Qed.
(** The recursion that the usual implementation tabulates. *)
Fixpoint distance (a : list Z) : list Z -> nat :=
  match a with
  | [] => fun b => List.length b
  | x :: a' => fix row (b : list Z) : nat :=
      match b with
      | [] => S (List.length a')
      | y :: b' => Nat.min (distance a' b' + (if (x =? y)%Z then 0 else 1)) (Nat.min (S (distance a' b)) (S (row b')))
      end
  end.
Lemma distance_step x a y b : distance (x :: a) (y :: b) = Nat.min (distance a b + (if (x =? y)%Z then 0 else 1)) (Nat.min (S (distance a (y :: b))) (S (distance (x :: a) b))).
Proof. reflexivity. Qed.
Lemma aligned_length a : aligned a [] (List.length a).
Proof. induction a; [apply al_end|]. apply al_delete. assumption. Qed.
Lemma aligned_length' b : aligned [] b (List.length b).
Proof. induction b; [apply al_end|]. apply al_insert. assumption. Qed.
Lemma distance_aligned a : forall b, aligned a b (distance a b).
Proof.
  induction a as [|x a IH]; intros b; [apply aligned_length'|]. induction b as [|y b IHb]; [apply (aligned_length (x :: a))|]. rewrite distance_step.
  destruct (Nat.min_spec (distance a b + (if (x =? y)%Z then 0 else 1)) (Nat.min (S (distance a (y :: b))) (S (distance (x :: a) b)))) as [[_ ->]|[_ ->]].
  - destruct (Z.eqb_spec x y) as [->|N]; [rewrite Nat.add_0_r; apply al_same, IH|rewrite Nat.add_1_r; apply al_replace, IH].
  - destruct (Nat.min_spec (S (distance a (y :: b))) (S (distance (x :: a) b))) as [[_ ->]|[_ ->]]; [apply al_delete, IH|apply al_insert, IHb].
Qed.
Lemma distance_least a b n : aligned a b n -> distance a b <= n.
Proof.
  assert (Z0 : forall a, distance a [] = List.length a) by (intros []; reflexivity).
  induction 1 as [|x a b n H IH|x y a b n H IH|x a b n H IH|y a b n H IH].
  - cbn. lia.
  - rewrite distance_step, Z.eqb_refl. lia.
  - rewrite distance_step. destruct (x =? y)%Z; lia.
  - destruct b as [|y b]; [rewrite Z0 in *; cbn [List.length]; lia|]. rewrite distance_step. lia.
  - destruct a as [|x a]; [cbn [distance List.length] in *; lia|]. rewrite distance_step. lia.
Qed.
Lemma distance_exact a b : edit_distance a b (distance a b).
Proof.
  split; [apply aligned_edits, distance_aligned|]. intros m H. apply edits_aligned in H. destruct H as (k & L & A). apply distance_least in A. lia.
Qed.
