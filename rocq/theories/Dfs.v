(** * Dfs: the depth-first search shared by context.go's two recursive helpers, over abstract references. *)
From Coq Require Import Relations.
From Verif Require Import Base Context.

Section Dfs.
Context {A : Type}.
Variable eqA : forall x y : A, {x = y} + {x <> y}.
Variable refs : nat -> list nat.
Variable uses : nat -> list A.
Variable edge : nat -> list A.
Variable ins : A -> list A -> list A.
Hypothesis ins_spec : forall x l y, In y (ins x l) <-> y = x \/ In y l.
Hypothesis ins_nodup : forall x l, NoDup l -> NoDup (ins x l).

Definition inss (xs : list A) (l : list A) : list A := fold_left (fun l x => ins x l) xs l.
Lemma inss_spec xs : forall l y, In y (inss xs l) <-> In y xs \/ In y l.
Proof.
  unfold inss. induction xs as [|x xs IH]; intros l y; cbn; [tauto|]. rewrite IH, ins_spec. intuition congruence.
Qed.
Lemma inss_nodup xs : forall l, NoDup l -> NoDup (inss xs l).
Proof. unfold inss. induction xs as [|x xs IH]; intros l H; cbn; auto. Qed.

Fixpoint dfs (fuel i : nat) (st : list A * list nat) : option (list A * list nat) :=
  match fuel with
  | O => None
  | S f =>
      fold_left (fun o rd =>
        match o with
        | None => None
        | Some (agg, seen) =>
            let agg := inss (edge rd) agg in
            if inNat rd seen then Some (agg, seen) else dfs f rd (agg, rd :: seen)
        end) (refs i) (Some (inss (uses i) (fst st), snd st))
  end.

Lemma inNat_In x l : inNat x l = true <-> In x l.
Proof.
  unfold inNat. rewrite existsb_exists. split; [intros (y & H & E); apply Nat.eqb_eq in E; congruence|].
  intros H. exists x. split; [exact H|apply Nat.eqb_refl].
Qed.
Lemma inNat_notIn x l : inNat x l = false <-> ~ In x l.
Proof. rewrite <- inNat_In. destruct (inNat x l); split; congruence. Qed.

(** all references are in the universe [U] *)
Variable U : list nat.
Hypothesis refsU : forall i j, In j (refs i) -> In j U.
Definition unseen (seen : list nat) : nat := List.length (filter (fun j => negb (inNat j seen)) U).
Lemma unseen_mono s s' : incl s s' -> unseen s' <= unseen s.
Proof.
  intros H. unfold unseen. clear refsU. induction U as [|u us IH]; cbn; [lia|].
  destruct (inNat u s') eqn:E'; destruct (inNat u s) eqn:E; cbn; try lia.
  exfalso. apply inNat_In in E. apply H in E. apply inNat_In in E. congruence.
Qed.
Lemma unseen_drop s j : In j U -> ~ In j s -> S (unseen (j :: s)) <= unseen s.
Proof.
  intros Hj Hn. unfold unseen. clear refsU. induction U as [|u us IH]; [destruct Hj|]. cbn [filter].
  destruct (Nat.eq_dec u j) as [->|Hne].
  - assert (E1 : inNat j (j :: s) = true) by (apply inNat_In; left; reflexivity). assert (E2 : inNat j s = false) by (apply inNat_notIn; exact Hn).
    rewrite E1, E2. cbn [negb List.length]. apply le_n_S. clear - s. induction us as [|u us IH]; cbn [filter List.length]; [lia|].
    change (inNat u (j :: s)) with (Nat.eqb u j || inNat u s)%bool. destruct (Nat.eqb u j); destruct (inNat u s); cbn [negb orb List.length]; lia.
  - destruct Hj as [->|Hj]; [congruence|]. specialize (IH Hj).
    assert (E1 : inNat u (j :: s) = inNat u s). { unfold inNat. cbn. replace (Nat.eqb u j) with false by (symmetry; apply Nat.eqb_neq; exact Hne). reflexivity. }
    rewrite E1. destruct (inNat u s); cbn [negb orb List.length]; lia.
Qed.

(** what one visit guarantees *)
Definition post (i : nat) (agg : list A) (seen : list nat) (agg' : list A) (seen' : list nat) : Prop :=
  incl seen seen' /\ (NoDup agg -> NoDup agg') /\
  (forall j, In j seen' -> In j seen \/ clos_trans nat (fun a b => In b (refs a)) i j) /\
  (forall j, j = i \/ (In j seen' /\ ~ In j seen) -> forall k, In k (refs j) -> In k seen') /\
  (forall x, In x agg' <-> In x agg \/ exists j, (j = i \/ (In j seen' /\ ~ In j seen)) /\ (In x (uses j) \/ exists k, In k (refs j) /\ In x (edge k))).

Lemma dfs_ok : forall fuel i agg seen, unseen seen < fuel ->
  exists agg' seen', dfs fuel i (agg, seen) = Some (agg', seen') /\ post i agg seen agg' seen'.
Proof.
  induction fuel as [|f IH]; intros i agg seen Hf; [lia|]. cbn [dfs fst snd].
  (* invariant of the loop over the references already treated *)
  assert (L : forall todo dn agg1 seen1, refs i = dn ++ todo -> unseen seen1 <= unseen seen -> incl seen seen1 -> (NoDup agg -> NoDup agg1) ->
    (forall j, In j seen1 -> In j seen \/ clos_trans nat (fun a b => In b (refs a)) i j) ->
    (forall k, In k dn -> In k seen1) ->
    (forall j, In j seen1 -> ~ In j seen -> forall k, In k (refs j) -> In k seen1) ->
    (forall x, In x agg1 <-> In x agg \/ In x (uses i) \/ (exists k, In k dn /\ In x (edge k)) \/
       exists j, (In j seen1 /\ ~ In j seen) /\ (In x (uses j) \/ exists k, In k (refs j) /\ In x (edge k))) ->
    exists agg' seen', fold_left (fun o rd => match o with None => None | Some (agg, seen) =>
            let agg := inss (edge rd) agg in if inNat rd seen then Some (agg, seen) else dfs f rd (agg, rd :: seen) end) todo (Some (agg1, seen1)) = Some (agg', seen') /\
      post i agg seen agg' seen').
  { induction todo as [|rd todo IHt]; intros dn agg1 seen1 Hr Hu Hi Hnd Hs Hd Hc Ha.
    - exists agg1, seen1. split; [reflexivity|]. rewrite app_nil_r in Hr. split; [exact Hi|]. split; [exact Hnd|]. split; [exact Hs|]. split.
      + intros j [->|[Hj Hn]] k Hk; [apply Hd; rewrite <- Hr; exact Hk|exact (Hc j Hj Hn k Hk)].
      + intros x. rewrite Ha. split.
        * intros [H|[H|[(k & H1 & H2)|(j & H1 & H2)]]]; [left; exact H| | |].
          -- right. exists i. split; [left; reflexivity|left; exact H].
          -- right. exists i. split; [left; reflexivity|]. right. exists k. rewrite Hr. auto.
          -- right. exists j. split; [right; exact H1|exact H2].
        * intros [H|(j & [->|H1] & H2)]; [left; exact H| |].
          -- destruct H2 as [H2|(k & Hk & H2)]; [right; left; exact H2|]. right. right. left. exists k. rewrite <- Hr. auto.
          -- right. right. right. exists j. auto.
    - cbn [fold_left]. cbv zeta. destruct (inNat rd seen1) eqn:E.
      + apply inNat_In in E. apply (IHt (dn ++ [rd])).
        * rewrite <- app_assoc. exact Hr.
        * exact Hu.
        * exact Hi.
        * intros H. apply inss_nodup. auto.
        * exact Hs.
        * intros k Hk. apply in_app_iff in Hk. destruct Hk as [Hk|[<-|[]]]; auto.
        * exact Hc.
        * intros x. rewrite inss_spec, Ha. split.
          -- intros [H|[H|[H|[(k & Hk & H)|H]]]]; [|auto|auto| |auto].
             ++ right. right. left. exists rd. split; [apply in_app_iff; right; left; reflexivity|exact H].
             ++ right. right. left. exists k. split; [apply in_app_iff; left; exact Hk|exact H].
          -- intros [H|[H|[(k & Hk & H)|H]]]; [auto|auto| |auto]. apply in_app_iff in Hk. destruct Hk as [Hk|[<-|[]]]; [|auto].
             right. right. right. left. eauto.
      + apply inNat_notIn in E. assert (HU : In rd (refs i)) by (rewrite Hr; apply in_app_iff; right; left; reflexivity).
        pose proof (unseen_drop seen1 rd (refsU _ _ HU) E) as Hdrop.
        destruct (IH rd (inss (edge rd) agg1) (rd :: seen1) ltac:(lia)) as (agg2 & seen2 & E2 & P1 & P2 & P3 & P4 & P5). rewrite E2.
        assert (Hinc : incl seen1 seen2) by (intros j Hj; apply P1; right; exact Hj).
        apply (IHt (dn ++ [rd])).
        * rewrite <- app_assoc. exact Hr.
        * pose proof (unseen_mono _ _ Hinc). lia.
        * intros j Hj. apply Hinc, Hi, Hj.
        * intros H. apply P2, inss_nodup. auto.
        * intros j Hj. destruct (P3 j Hj) as [[<-|H]|H]; [right; apply t_step; exact HU|apply Hs; exact H|].
          right. eapply t_trans; [apply t_step; exact HU|exact H].
        * intros k Hk. apply in_app_iff in Hk. destruct Hk as [Hk|[<-|[]]]; [apply Hinc, Hd, Hk|apply P1; left; reflexivity].
        * intros j Hj Hn k Hk. destruct (in_dec Nat.eq_dec j seen1) as [H1|H1]; [apply Hinc; exact (Hc j H1 Hn k Hk)|].
          apply (P4 j); [|exact Hk]. destruct (Nat.eq_dec j rd) as [->|Hne]; [left; reflexivity|]. right. split; [exact Hj|].
          intros [H|H]; [apply Hne; congruence|contradiction].
        * intros x. rewrite P5, inss_spec, Ha. split.
          -- intros [[H|[H|[H|[(k & Hk & H)|(j & [Hj1 Hj2] & H)]]]]|(j & Hj & H)].
             ++ right. right. left. exists rd. split; [apply in_app_iff; right; left; reflexivity|exact H].
             ++ auto.
             ++ auto.
             ++ right. right. left. exists k. split; [apply in_app_iff; left; exact Hk|exact H].
             ++ right. right. right. exists j. auto.
             ++ right. right. right. exists j. split; [|exact H].
                assert (Hj' : In j seen2 /\ ~ In j seen1).
                { destruct Hj as [->|[H1 H2]]; [split; [apply P1; left; reflexivity|exact E]|]. split; [exact H1|]. intros H3. apply H2. right. exact H3. }
                split; [apply Hj'|]. intros H3. apply Hj'. apply Hi. exact H3.
          -- intros [H|[H|[(k & Hk & H)|(j & [Hj1 Hj2] & H)]]]; [auto|auto| |].
             ++ apply in_app_iff in Hk. destruct Hk as [Hk|[<-|[]]]; [|auto]. left. right. right. right. left. eauto.
             ++ destruct (in_dec Nat.eq_dec j seen1) as [H1|H1]; [left; right; right; right; right; exists j; auto|].
                right. exists j. split; [|exact H]. destruct (Nat.eq_dec j rd) as [->|Hne]; [left; reflexivity|]. right. split; [exact Hj1|].
                intros [H2|H2]; [apply Hne; congruence|contradiction]. }
  apply (L (refs i) []).
  - reflexivity.
  - lia.
  - apply incl_refl.
  - apply inss_nodup.
  - intros j Hj. left. exact Hj.
  - intros k [].
  - intros j H1 H2. contradiction.
  - intros x. rewrite inss_spec. split.
    + intros [H|H]; auto.
    + intros [H|[H|[(k & [] & _)|(j & [H1 H2] & _)]]]; [auto|auto|contradiction].
Qed.

(** From nothing seen: exactly what is reachable. *)
Theorem dfs_reach fuel i : List.length U < fuel -> exists agg seen, dfs fuel i ([], []) = Some (agg, seen) /\ NoDup agg /\
  forall x, In x agg <-> exists j, (j = i \/ clos_trans nat (fun a b => In b (refs a)) i j) /\ (In x (uses j) \/ exists k, In k (refs j) /\ In x (edge k)).
Proof.
  intros Hf. assert (Hu : unseen [] < fuel).
  { eapply Nat.le_lt_trans; [|exact Hf]. unfold unseen. clear. induction U as [|u us IH]; cbn [filter]; [cbn; lia|]. destruct (negb (inNat u [])); cbn [List.length]; lia. }
  destruct (dfs_ok fuel i [] [] Hu) as (agg & seen & E & P1 & P2 & P3 & P4 & P5). exists agg, seen. split; [exact E|]. split; [apply P2; constructor|].
  assert (R : forall j, In j seen <-> clos_trans nat (fun a b => In b (refs a)) i j).
  { intros j. split.
    - intros Hj. destruct (P3 j Hj) as [[]|H]. exact H.
    - intros H. apply clos_trans_tn1 in H. induction H as [y H|y z H1 H2 IH].
      + apply (P4 i); [left; reflexivity|exact H].
      + apply (P4 y); [right; split; [exact IH|intros []]|exact H1]. }
  intros x. rewrite P5. split.
  - intros [[]|(j & Hj & H)]. exists j. split; [|exact H]. destruct Hj as [->|[Hj _]]; [left; reflexivity|right; apply R; exact Hj].
  - intros (j & Hj & H). right. exists j. split; [|exact H]. destruct Hj as [->|Hj]; [left; reflexivity|]. right. split; [apply R; exact Hj|intros []].
Qed.
End Dfs.
