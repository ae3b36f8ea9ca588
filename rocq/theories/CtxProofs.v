(** * CtxProofs: what the decorating walk of a query context records, and what the recursive helpers make of it. *)
From Coq Require Import Relations.
From Verif Require Import Base AST Walker WalkSpec Context Dfs.

(** ** Specification *)
Definition is_exec (d : definition) : bool := match def_body d with DOp _ | DFrag _ => true | _ => false end.
(** Variable [v] occurs somewhere in definition number [i] of the document. *)
Definition occurs (doc : document) (i : nat) (v : bytes) : Prop :=
  exists d, nth_error (doc_defs doc) i = Some d /\ below (NDefinition i d) (NVariableValue (VVar v)).
(** Definition number [i] has a spread of the fragment defined by definition number [j]. *)
Definition spreads (doc : document) (i j : nat) : Prop :=
  exists d name dirs f dj, nth_error (doc_defs doc) i = Some d /\ below (NDefinition i d) (NFragmentSpread (SSpread name dirs)) /\
    nth_error (doc_defs doc) j = Some dj /\ def_body dj = DFrag f /\ f_name f = name.
(** The last executable definition up to number [j] is number [i]. *)
Definition owns (doc : document) (i j : nat) : Prop :=
  i <= j /\ (exists d, nth_error (doc_defs doc) i = Some d /\ is_exec d = true) /\
  forall m d, i < m <= j -> nth_error (doc_defs doc) m = Some d -> is_exec d = false.

(** ** The walk as a fold over the nodes *)
Definition qstep (c : ctx) (n : node) : ctx := step query_context_walker c (Enter, n).
Lemma leave_noop c n : step query_context_walker c (Leave, n) = c.
Proof. destruct n; reflexivity. Qed.
Lemma run_enter es c : run_events query_context_walker es c = fold_left qstep (at_phase Enter es) c.
Proof.
  revert c. induction es as [|[ph n] es IH]; intros c; [reflexivity|]. change (run_events query_context_walker ((ph, n) :: es) c) with (run_events query_context_walker es (step query_context_walker c (ph, n))).
  rewrite IH. change (at_phase Enter ((ph, n) :: es)) with (at_phase Enter ([(ph, n)] ++ es)). rewrite at_phase_app. destruct ph.
  - reflexivity.
  - rewrite leave_noop. reflexivity.
Qed.
Definition ctx0 (doc : document) (s : option schema) : ctx :=
  mkCtx doc [] (match s with None => empty_schema | Some s => s end) None [] [] [] [] None false.
Lemma new_context_fold doc s : new_context doc s = fold_left qstep (nodes doc) (ctx0 doc s).
Proof. unfold new_context. rewrite walk_run, run_enter, events_enter. reflexivity. Qed.

(** [c'] differs from [c] only in what the decorating walk sets. *)
Definition qsame (c c' : ctx) : Prop :=
  c_doc c' = c_doc c /\ c_errors c' = c_errors c /\ c_schema c' = c_schema c /\ c_sdl c' = c_sdl c /\ c_ops c' = c_ops c /\ c_crash c' = c_crash c.
Lemma qsame_refl c : qsame c c. Proof. unfold qsame; auto 10. Qed.
Ltac qs := solve [unfold qsame; cbn; auto 10].
Lemma qsame_trans a b c : qsame a b -> qsame b c -> qsame a c.
Proof. unfold qsame. intros (?&?&?&?&?&?) (?&?&?&?&?&?). repeat match goal with |- _ /\ _ => split end; congruence. Qed.

Definition spread_one (name : bytes) (c : ctx) (p : nat * definition) : ctx :=
  match def_body (snd p) with
  | DFrag f => if beqb (f_name f) name then
      let l := pget (c_exec c) (c_refs c) in if inNat (fst p) l then c else set_refs (pset (c_exec c) (l ++ [fst p]) (c_refs c)) c
    else c
  | _ => c
  end.
Lemma qstep_spread c name ds : qstep c (NFragmentSpread (SSpread name ds)) = fold_left (spread_one name) (numbered (doc_defs (c_doc c))) c.
Proof. reflexivity. Qed.

(** ** pmap *)
Lemma pkey_eqb_spec a b : reflect (a = b) (pkey_eqb a b).
Proof.
  destruct a as [x|], b as [y|]; cbn; try (constructor; congruence). destruct (Nat.eqb_spec x y); constructor; congruence.
Qed.
Lemma pget_pset {V} k k' (v : list V) m : pget k (pset k' v m) = if pkey_eqb k k' then v else pget k m.
Proof.
  induction m as [|[a l] m IH]; cbn; [reflexivity|]. destruct (pkey_eqb_spec k' a) as [->|Hn].
  - cbn. destruct (pkey_eqb_spec k a); reflexivity.
  - cbn. rewrite IH. destruct (pkey_eqb_spec k a) as [->|]; [|reflexivity]. destruct (pkey_eqb_spec a k'); congruence.
Qed.

(** ** One spread *)
Lemma spread_fold name ps : forall c, let c' := fold_left (spread_one name) ps c in
  qsame c c' /\ c_exec c' = c_exec c /\ c_vars c' = c_vars c /\ c_frags c' = c_frags c /\
  (forall k j, In j (pget k (c_refs c')) <-> In j (pget k (c_refs c)) \/
     (k = c_exec c /\ exists d f, In (j, d) ps /\ def_body d = DFrag f /\ f_name f = name)).
Proof.
  induction ps as [|[i d] ps IH]; intros c; cbn [fold_left].
  - cbv zeta. split; [qs|]. split; [reflexivity|]. split; [reflexivity|]. split; [reflexivity|]. intros k j. split; [auto|]. intros [H|(_ & d & f & [] & _)]. exact H.
  - specialize (IH (spread_one name c (i, d))). cbv zeta in *. destruct IH as (S & Ex & Va & Fr & R).
    assert (Q : qsame c (spread_one name c (i, d)) /\ c_exec (spread_one name c (i, d)) = c_exec c /\ c_vars (spread_one name c (i, d)) = c_vars c /\ c_frags (spread_one name c (i, d)) = c_frags c /\
      forall k j, In j (pget k (c_refs (spread_one name c (i, d)))) <-> In j (pget k (c_refs c)) \/ (k = c_exec c /\ j = i /\ exists f, def_body d = DFrag f /\ f_name f = name)).
    { unfold spread_one. cbn [fst snd]. destruct (def_body d) as [o|f|?|?|?|?|?] eqn:Eb;
        try (split; [qs|]; split; [reflexivity|]; split; [reflexivity|]; split; [reflexivity|]; intros k j; split; [auto|]; intros [H|(_ & _ & f & E & _)]; [exact H|discriminate]).
      destruct (beqb_spec (f_name f) name) as [En|En].
      - destruct (inNat i (pget (c_exec c) (c_refs c))) eqn:Ei.
        + apply inNat_In in Ei. split; [qs|]. split; [reflexivity|]. split; [reflexivity|]. split; [reflexivity|]. intros k j. split; [auto|].
          intros [H|(-> & -> & _)]; [exact H|exact Ei].
        + split; [qs|]. split; [reflexivity|]. split; [reflexivity|]. split; [reflexivity|]. intros k j. cbn [c_refs set_refs]. rewrite pget_pset.
          destruct (pkey_eqb_spec k (c_exec c)) as [->|Hk].
          * rewrite in_app_iff. split; [intros [H|[<-|[]]]; [auto|]; right; eauto|]. intros [H|(_ & -> & _)]; [auto|]. right. left. reflexivity.
          * split; [auto|]. intros [H|(E & _)]; [exact H|congruence].
      - split; [qs|]. split; [reflexivity|]. split; [reflexivity|]. split; [reflexivity|]. intros k j. split; [auto|].
        intros [H|(_ & _ & g & E & E')]; [exact H|]. injection E as <-. congruence. }
    destruct Q as (S1 & Ex1 & Va1 & Fr1 & R1). split; [eapply qsame_trans; eassumption|]. split; [congruence|]. split; [congruence|]. split; [congruence|].
    intros k j. rewrite R, R1, Ex1. split.
    + intros [[H|(-> & -> & f & E & E')]|(-> & d' & f & H & E)]; [auto| |].
      * right. split; [reflexivity|]. exists d, f. split; [left; reflexivity|auto].
      * right. split; [reflexivity|]. exists d', f. split; [right; exact H|exact E].
    + intros [H|(-> & d' & f & [H|H] & E)]; [auto| |].
      * left. right. injection H as -> ->. eauto.
      * right. split; [reflexivity|]. eauto.
Qed.

(** ** The whole walk *)
Definition own1 (k : pkey) (n : node) : pkey := match n with NExecutable i _ => Some i | _ => k end.
Definition owner (k : pkey) (ns : list node) : pkey := fold_left own1 ns k.
Lemma owner_app k a b : owner k (a ++ b) = owner (owner k a) b.
Proof. apply fold_left_app. Qed.

Lemma qstep_ok c n : let c' := qstep c n in
  qsame c c' /\ c_exec c' = own1 (c_exec c) n /\
  (forall k v, In v (pget k (c_vars c')) <-> In v (pget k (c_vars c)) \/ (k = c_exec c /\ n = NVariableValue (VVar v))) /\
  (forall k j, In j (pget k (c_refs c')) <-> In j (pget k (c_refs c)) \/
     (k = c_exec c /\ exists name ds d f, n = NFragmentSpread (SSpread name ds) /\ In (j, d) (numbered (doc_defs (c_doc c))) /\ def_body d = DFrag f /\ f_name f = name)) /\
  (c_frags c' = match n with NFragment f => mset (f_name f) f (c_frags c) | _ => c_frags c end).
Proof.
  cbv zeta.
  assert (T : forall c' : ctx, qsame c c' -> c_exec c' = own1 (c_exec c) n -> c_vars c' = c_vars c -> c_refs c' = c_refs c ->
    (forall v, n <> NVariableValue (VVar v)) -> (forall a b, n <> NFragmentSpread (SSpread a b)) ->
    c_frags c' = match n with NFragment f => mset (f_name f) f (c_frags c) | _ => c_frags c end ->
    qsame c c' /\ c_exec c' = own1 (c_exec c) n /\
    (forall k v, In v (pget k (c_vars c')) <-> In v (pget k (c_vars c)) \/ (k = c_exec c /\ n = NVariableValue (VVar v))) /\
    (forall k j, In j (pget k (c_refs c')) <-> In j (pget k (c_refs c)) \/
     (k = c_exec c /\ exists name ds d f, n = NFragmentSpread (SSpread name ds) /\ In (j, d) (numbered (doc_defs (c_doc c))) /\ def_body d = DFrag f /\ f_name f = name)) /\
    (c_frags c' = match n with NFragment f => mset (f_name f) f (c_frags c) | _ => c_frags c end)).
  { intros c' S Ex Va Re Nv Ns Fr. split; [exact S|]. split; [exact Ex|]. rewrite Va, Re. split; [|split; [|exact Fr]].
    - intros k v. split; [auto|]. intros [H|(_ & E)]; [exact H|]. destruct (Nv v E).
    - intros k j. split; [auto|]. intros [H|(_ & a & b & _ & _ & E & _)]; [exact H|]. destruct (Ns a b E). }
  destruct n as [| | | | | | | | | | | | | | |sel| | | | | | | | | | | | | | | vv | | | | | | | | | | | | | | | | | | | |];
    try (apply T; [qs|reflexivity|reflexivity|reflexivity|congruence|congruence|reflexivity]).
  - destruct sel as [| name ds |]; try (apply T; [qs|reflexivity|reflexivity|reflexivity|congruence|congruence|reflexivity]).
    rewrite qstep_spread. pose proof (spread_fold name (numbered (doc_defs (c_doc c))) c) as H. cbv zeta in H. destruct H as (S & Ex & Va & Fr & R).
    split; [exact S|]. split; [exact Ex|]. split; [|split; [|exact Fr]].
    + intros k v. rewrite Va. split; [auto|]. intros [H|(_ & E)]; [exact H|discriminate].
    + intros k j. rewrite R. split; [intros [H|(-> & d & f & H)]; [auto|right; split; [reflexivity|]; exists name, ds, d, f; auto]|].
      intros [H|(-> & a & b & d & f & E & H)]; [auto|]. injection E as <- <-. right. split; [reflexivity|]. exists d, f. exact H.
  - destruct vv; try (apply T; [qs|reflexivity|reflexivity|reflexivity|congruence|congruence|reflexivity]).
    change (qstep c (NVariableValue (VVar n))) with (if inb n (pget (c_exec c) (c_vars c)) then c else set_vars (pset (c_exec c) (pget (c_exec c) (c_vars c) ++ [n]) (c_vars c)) c).
    destruct (inb n (pget (c_exec c) (c_vars c))) eqn:Ei.
    + apply inb_In in Ei. split; [qs|]. split; [reflexivity|]. split; [|split; [|reflexivity]].
      * intros k v. split; [auto|]. intros [H|(-> & E)]; [exact H|]. injection E as <-. exact Ei.
      * intros k j. split; [auto|]. intros [H|(_ & a & b & _ & _ & E & _)]; [exact H|discriminate].
    + split; [qs|]. split; [reflexivity|]. split; [|split; [|reflexivity]].
      * intros k v. cbn [c_vars set_vars]. rewrite pget_pset. destruct (pkey_eqb_spec k (c_exec c)) as [->|Hk].
        -- rewrite in_app_iff. split; [intros [H|[<-|[]]]; auto|]. intros [H|(_ & E)]; [auto|]. injection E as <-. right. left. reflexivity.
        -- split; [auto|]. intros [H|(E & _)]; [exact H|congruence].
      * intros k j. split; [auto|]. intros [H|(_ & a & b & _ & _ & E & _)]; [exact H|discriminate].
Qed.

Lemma qfold_ok ns : forall c, let c' := fold_left qstep ns c in
  qsame c c' /\ c_exec c' = owner (c_exec c) ns /\
  (forall k v, In v (pget k (c_vars c')) <-> In v (pget k (c_vars c)) \/ exists a b, ns = a ++ NVariableValue (VVar v) :: b /\ owner (c_exec c) a = k) /\
  (forall k j, In j (pget k (c_refs c')) <-> In j (pget k (c_refs c)) \/
     exists a b name ds d f, ns = a ++ NFragmentSpread (SSpread name ds) :: b /\ owner (c_exec c) a = k /\ In (j, d) (numbered (doc_defs (c_doc c))) /\ def_body d = DFrag f /\ f_name f = name) /\
  c_frags c' = fold_left (fun m n => match n with NFragment f => mset (f_name f) f m | _ => m end) ns (c_frags c).
Proof.
  induction ns as [|n ns IH]; intros c; cbv zeta; cbn [fold_left].
  - split; [qs|]. split; [reflexivity|]. split; [|split; [|reflexivity]].
    + intros k v. split; [auto|]. intros [H|([|] & ? & E & _)]; [exact H|discriminate|discriminate].
    + intros k j. split; [auto|]. intros [H|([|] & ? & ? & ? & ? & ? & E & _)]; [exact H|discriminate|discriminate].
  - specialize (IH (qstep c n)). pose proof (qstep_ok c n) as H1. cbv zeta in *. destruct IH as (S & Ex & Va & Re & Fr), H1 as (S1 & Ex1 & Va1 & Re1 & Fr1).
    split; [eapply qsame_trans; eassumption|]. split; [rewrite Ex, Ex1; reflexivity|]. split; [|split; [|rewrite Fr, Fr1; reflexivity]].
    + intros k v. rewrite Va, Va1, Ex1. split.
      * intros [[H|(-> & ->)]|(a & b & -> & E)]; [auto| |]; right; [exists [], ns; auto|]. exists (n :: a), b. auto.
      * intros [H|([|m a] & b & E & Ek)]; [auto| |].
        -- injection E as -> ->. left. right. split; [symmetry; exact Ek|reflexivity].
        -- injection E as -> ->. right. exists a, b. auto.
    + intros k j. rewrite Re, Re1, Ex1. destruct S1 as (Ed & _). rewrite Ed. split.
      * intros [[H|(-> & name & ds & d & f & -> & H)]|(a & b & name & ds & d & f & -> & H)]; [auto| |]; right.
        -- exists [], ns, name, ds, d, f. split; [reflexivity|]. split; [reflexivity|exact H].
        -- exists (n :: a), b, name, ds, d, f. split; [reflexivity|]. exact H.
      * intros [H|([|m a] & b & name & ds & d & f & E & Ek & H)]; [auto| |].
        -- injection E as -> ->. left. right. split; [symmetry; exact Ek|]. exists name, ds, d, f. auto.
        -- injection E as -> ->. right. exists a, b, name, ds, d, f. auto.
Qed.

(** ** Nodes inside a definition *)
Definition low (n : node) : bool := match n with NDocument _ | NDefinitions _ | NDefinition _ _ | NExecutable _ _ => false | _ => true end.
(** nodes that occur in type system definitions *)
Definition ts (n : node) : bool :=
  match n with
  | NDocument _ | NDefinitions _ | NDefinition _ _ | NExecutable _ _ | NOperation _ | NOperationKind _ _ | NFragment _ | NTypeCondition _
  | NVariableDefinitions _ | NVariableDefinition _ | NSelections _ | NSelection _ | NFieldSelection _ | NFragmentSpread _ | NInlineFragment _ => false
  | _ => true
  end.
Lemma in_nonnil {X} (f : list X -> node) l n : In n (nonnil f l) -> n = f l.
Proof. destruct l; cbn; [intros []|]. intros [<-|[]]. reflexivity. Qed.
Lemma in_some {X} (f : X -> node) o n : In n (some f o) -> exists x, n = f x.
Proof. destruct o; cbn; [|intros []]. intros [<-|[]]. eauto. Qed.
Ltac kd := repeat match goal with
  | H : In _ (_ ++ _) |- _ => apply in_app_iff in H; destruct H as [H|H]
  | H : In _ (map _ _) |- _ => apply in_map_iff in H; destruct H as (? & <- & ?)
  | H : In _ (nonnil _ _) |- _ => apply in_nonnil in H; subst
  | H : In _ (some _ _) |- _ => apply in_some in H; destruct H as (? & ->)
  | H : In _ [] |- _ => destruct H
  | H : In _ (_ :: _) |- _ => destruct H as [<-|H]
  end.
Lemma low_kids n m : low n = true -> In m (kids n) -> low m = true.
Proof.
  intros L H. destruct n; try discriminate L; cbn [kids] in H;
    repeat match type of H with context [match ?x with _ => _ end] => destruct x end; kd; try reflexivity.
Qed.
Lemma ts_kids n m : ts n = true -> In m (kids n) -> ts m = true.
Proof.
  intros L H. destruct n; try discriminate L; cbn [kids] in H;
    repeat match type of H with context [match ?x with _ => _ end] => destruct x end; kd; try reflexivity.
Qed.
Lemma below_low n m : below n m -> low n = true -> low m = true.
Proof. induction 1 as [|p n m H _ IH]; intros L; [exact L|]. apply IH. eapply low_kids; eassumption. Qed.
Lemma below_ts n m : below n m -> ts n = true -> ts m = true.
Proof. induction 1 as [|p n m H _ IH]; intros L; [exact L|]. apply IH. eapply ts_kids; eassumption. Qed.

Lemma owner_low k ns : Forall (fun n => low n = true) ns -> owner k ns = k.
Proof. induction 1 as [|n ns H _ IH] in k |- *; [reflexivity|]. cbn. destruct n; try discriminate H; apply IH. Qed.
Lemma preorder_low t : ast_tree t -> low (root t) = true -> Forall (fun n => low n = true) (preorder t).
Proof. intros H L. apply Forall_forall. intros m Hm. apply preorder_below in Hm; [|exact H]. eapply below_low; eassumption. Qed.

(** The nodes of one definition. *)
Lemma pre_def i d : exists rest, preorder (tDefinition (i, d)) = (if is_exec d then [NDefinition i d; NExecutable i (def_body d)] else [NDefinition i d]) ++ rest /\
  Forall (fun n => low n = true) rest.
Proof.
  unfold tDefinition, is_exec. cbn [fst snd preorder flat_map]. rewrite app_nil_r.
  destruct (def_body d) as [o|f|s|t|x|s|t] eqn:E; cbn [tBody preorder flat_map app]; rewrite ?app_nil_r.
  1,2: eexists; split; [reflexivity|]; apply preorder_low; [first [apply ok_operation|apply ok_fragment]|reflexivity].
  all: eexists; split; [reflexivity|]; constructor; [reflexivity|]; apply preorder_low; [first [apply ok_schemadef|apply ok_schemaext|apply ok_typedef|apply ok_typeext|apply ok_dirdef]|reflexivity].
Qed.
Lemma owner_def k i d : owner k (preorder (tDefinition (i, d))) = if is_exec d then Some i else k.
Proof.
  destruct (pre_def i d) as (rest & E & L). rewrite E, owner_app, owner_low by exact L. destruct (is_exec d); reflexivity.
Qed.
Lemma owner_in_def k i d a x b : preorder (tDefinition (i, d)) = a ++ x :: b -> low x = true -> owner k a = if is_exec d then Some i else k.
Proof.
  destruct (pre_def i d) as (rest & E & L). rewrite E. intros H Lx. destruct (is_exec d).
  - destruct a as [|y1 [|y2 a]]; cbn in H.
    + injection H as <- <-. discriminate.
    + injection H as <- <- <-. discriminate.
    + injection H as <- <- ->. cbn. apply Forall_app in L. destruct L as [L _]. apply (owner_low (Some i) a L).
  - destruct a as [|y1 a]; cbn in H; [injection H as <- <-; discriminate|]. injection H as <- ->. cbn. apply Forall_app in L. destruct L as [L _]. apply owner_low, L.
Qed.
Definition lastex (k : pkey) (ps : list (nat * definition)) : pkey := fold_left (fun k p => if is_exec (snd p) then Some (fst p) else k) ps k.
Lemma owner_defs ps : forall k, owner k (flat_map preorder (map tDefinition ps)) = lastex k ps.
Proof.
  induction ps as [|[i d] ps IH]; intros k; [reflexivity|]. cbn [map flat_map]. rewrite owner_app, owner_def, IH. reflexivity.
Qed.
Lemma split_defs ps : forall k x K, low x = true ->
  (exists a b, flat_map preorder (map tDefinition ps) = a ++ x :: b /\ owner k a = K) <->
  exists ps1 i d ps2, ps = ps1 ++ (i, d) :: ps2 /\ In x (preorder (tDefinition (i, d))) /\ K = lastex k (ps1 ++ [(i, d)]).
Proof.
  induction ps as [|[i d] ps IH]; intros k x K Lx.
  - split; [intros ([|] & ? & E & _); discriminate|]. intros ([|] & ? & ? & ? & E & _); discriminate.
  - cbn [map flat_map]. split.
    + intros (a & b & E & Ek). apply app_eq_app in E. destruct E as (l & [[E1 E2]|[E1 E2]]).
      * destruct l as [|y l].
        -- cbn in E2. destruct (proj1 (IH (owner k (preorder (tDefinition (i, d)))) x K Lx)) as (ps1 & j & dj & ps2 & -> & Hin & HK).
           { exists [], b. split; [symmetry; exact E2|]. rewrite app_nil_r in E1. subst a. exact Ek. }
           exists ((i, d) :: ps1), j, dj, ps2. split; [reflexivity|]. split; [exact Hin|]. rewrite HK, owner_def. reflexivity.
        -- injection E2 as <- E2. exists [], i, d, ps. split; [reflexivity|]. split; [rewrite E1; apply in_app_iff; right; left; reflexivity|].
           rewrite <- Ek. rewrite (owner_in_def k i d a x l E1 Lx). reflexivity.
      * subst a. rewrite owner_app in Ek. destruct (proj1 (IH (owner k (preorder (tDefinition (i, d)))) x K Lx)) as (ps1 & j & dj & ps2 & -> & Hin & HK).
        { exists l, b. split; [exact E2|exact Ek]. }
        exists ((i, d) :: ps1), j, dj, ps2. split; [reflexivity|]. split; [exact Hin|]. rewrite HK, owner_def. reflexivity.
    + intros ([|p ps1] & j & dj & ps2 & E & Hin & HK).
      * injection E as -> -> ->. apply in_split in Hin. destruct Hin as (a & b & Hab). exists a. eexists. rewrite Hab, <- app_assoc. split; [reflexivity|].
        rewrite HK. rewrite (owner_in_def k j dj a x b Hab Lx). reflexivity.
      * injection E as <- ->. destruct (proj2 (IH (owner k (preorder (tDefinition (i, d)))) x K Lx)) as (a & b & Ea & Eb).
        { exists ps1, j, dj, ps2. split; [reflexivity|]. split; [exact Hin|]. rewrite HK, owner_def. reflexivity. }
        exists (preorder (tDefinition (i, d)) ++ a), b. rewrite Ea, <- app_assoc. split; [reflexivity|]. rewrite owner_app. exact Eb.
Qed.

(** ** Numbered definitions *)
Lemma numbered_from (ds : list definition) : forall s ps1 i d ps2, combine (seq s (List.length ds)) ds = ps1 ++ (i, d) :: ps2 -> i = s + List.length ps1 /\ nth_error ds (List.length ps1) = Some d /\
  ps1 = combine (seq s (List.length ps1)) (firstn (List.length ps1) ds).
Proof.
  induction ds as [|x ds IH]; intros s ps1 i d ps2 E; [destruct ps1; discriminate|]. cbn [List.length seq combine] in E. destruct ps1 as [|p ps1]; cbn in E.
  - injection E as <- <- _. cbn. split; [lia|]. split; reflexivity.
  - injection E as <- E. destruct (IH (S s) ps1 i d ps2 E) as (-> & H1 & H2). cbn. split; [lia|]. split; [exact H1|]. f_equal. exact H2.
Qed.
Lemma numbered_split (ds : list definition) : forall s i d, nth_error ds i = Some d -> exists ps1 ps2, combine (seq s (List.length ds)) ds = ps1 ++ (s + i, d) :: ps2 /\ List.length ps1 = i.
Proof.
  induction ds as [|x ds IH]; intros s [|i] d E; try discriminate; cbn [List.length seq combine].
  - injection E as ->. exists [], (combine (seq (S s) (List.length ds)) ds). cbn. rewrite Nat.add_0_r. auto.
  - destruct (IH (S s) i d E) as (ps1 & ps2 & E1 & L). exists ((s, x) :: ps1), ps2. rewrite E1. cbn. replace (s + S i) with (S (s + i)) by lia. auto.
Qed.
Lemma numbered_In (ds : list definition) i d : In (i, d) (numbered ds) <-> nth_error ds i = Some d.
Proof.
  unfold numbered. split.
  - intros H. apply in_split in H. destruct H as (a & b & E). destruct (numbered_from ds 0 a i d b E) as (-> & H & _). exact H.
  - intros H. destruct (numbered_split ds 0 i d H) as (a & b & E & _). rewrite E. apply in_app_iff. right. left. reflexivity.
Qed.

(** last executable definition of a numbered prefix *)
Lemma lastex_spec ds : forall s k n i, n <= List.length ds ->
  lastex k (combine (seq s n) (firstn n ds)) = Some i <->
  (k = Some i /\ (forall m d, m < n -> nth_error ds m = Some d -> is_exec d = false)) \/
  (exists j, i = s + j /\ j < n /\ (exists d, nth_error ds j = Some d /\ is_exec d = true) /\ forall m d, j < m < n -> nth_error ds m = Some d -> is_exec d = false).
Proof.
  induction ds as [|x ds IH]; intros s k n i Hn; cbn [List.length] in Hn.
  - assert (n = 0) by lia. subst n. cbn. split; [intros ->; left; split; [reflexivity|]; intros; lia|]. intros [[E _]|(j & _ & H & _)]; [exact E|lia].
  - destruct n as [|n]; [cbn; split; [intros ->; left; split; [reflexivity|]; intros; lia|]; intros [[E _]|(j & _ & H & _)]; [exact E|lia]|].
    cbn [seq firstn combine lastex fold_left fst snd]. change (fold_left _ (combine (seq (S s) n) (firstn n ds)) ?k0) with (lastex k0 (combine (seq (S s) n) (firstn n ds))).
    rewrite IH by lia. split.
    + intros [[E H]|(j & -> & Hj & Hd & H)].
      * destruct (is_exec x) eqn:Ex.
        -- right. exists 0. injection E as <-. split; [lia|]. split; [lia|]. split; [exists x; auto|]. intros m d Hm. destruct m; [lia|]. cbn. apply H. lia.
        -- left. split; [exact E|]. intros [|m] d Hm; cbn; [congruence|]. apply H. lia.
      * right. exists (S j). split; [lia|]. split; [lia|]. split; [exact Hd|]. intros [|m] d Hm; [lia|]. cbn. apply H. lia.
    + intros [[-> H]|([|j] & -> & Hj & (d & Hd & Hx) & H)].
      * left. rewrite (H 0 x ltac:(lia) eq_refl). split; [reflexivity|]. intros m d Hm Hd. apply (H (S m)); [lia|exact Hd].
      * left. cbn in Hd. injection Hd as ->. rewrite Hx. split; [f_equal; lia|]. intros m d0 Hm Hd0. apply (H (S m)); [lia|exact Hd0].
      * right. exists j. split; [lia|]. split; [lia|]. split; [exists d; auto|]. intros m d0 Hm Hd0. apply (H (S m)); [lia|exact Hd0].
Qed.
Lemma lastex_owns doc ps1 j d ps2 i : numbered (doc_defs doc) = ps1 ++ (j, d) :: ps2 -> lastex None (ps1 ++ [(j, d)]) = Some i <-> owns doc i j.
Proof.
  intros E. destruct (numbered_from _ 0 _ _ _ _ E) as (Ej & Hn & Hp). cbn in Ej.
  assert (Hl : S j <= List.length (doc_defs doc)) by (rewrite Ej; apply nth_error_Some; congruence).
  assert (Hp' : ps1 ++ [(j, d)] = combine (seq 0 (S j)) (firstn (S j) (doc_defs doc))).
  { assert (E2 : numbered (doc_defs doc) = (ps1 ++ [(j, d)]) ++ ps2) by (rewrite <- app_assoc; exact E). unfold numbered in E2.
    apply (f_equal (firstn (S j))) in E2. rewrite firstn_app in E2. replace (S j - List.length (ps1 ++ [(j, d)])) with 0 in E2 by (rewrite app_length; cbn [List.length]; lia).
    change (firstn 0 ps2) with (@nil (nat * definition)) in E2. rewrite app_nil_r in E2. rewrite (firstn_all2 (ps1 ++ [(j, d)])) in E2 by (rewrite app_length; cbn [List.length]; lia).
    rewrite <- E2. rewrite combine_firstn. f_equal. clear - Hl. revert Hl. generalize (List.length (doc_defs doc)), 0. generalize (S j).
    intros n. induction n as [|n IHn]; intros [|m] s H; try lia; cbn; [reflexivity|reflexivity|]. f_equal. apply IHn. lia. }
  rewrite Hp', lastex_spec by exact Hl. unfold owns. split.
  - intros [[E1 _]|(i' & -> & Hi & Hd & H)]; [discriminate|]. cbn. split; [lia|]. split; [exact Hd|]. intros m dm Hm. apply H. lia.
  - intros (Hi & Hd & H). right. exists i. split; [reflexivity|]. split; [lia|]. split; [exact Hd|]. intros m dm Hm. apply H. lia.
Qed.

(** ** What is recorded *)
Lemma nodes_split doc x (L : low x = true) K : (exists a b, nodes doc = a ++ x :: b /\ owner None a = K) <->
  exists j d ps1 ps2, numbered (doc_defs doc) = ps1 ++ (j, d) :: ps2 /\ below (NDefinition j d) x /\ K = lastex None (ps1 ++ [(j, d)]).
Proof.
  unfold nodes, tDocument. cbn [preorder].
  assert (E : (exists a b, NDocument doc :: flat_map preorder (tNonnil tDefinitions (doc_defs doc)) = a ++ x :: b /\ owner None a = K) <->
     exists a b, flat_map preorder (map tDefinition (numbered (doc_defs doc))) = a ++ x :: b /\ owner None a = K).
  { destruct (doc_defs doc) as [|d0 ds] eqn:Ed.
    - cbn. split; intros ([|y a] & b & E & Ek); cbn in E; try discriminate; injection E as <- E; [subst; discriminate|destruct a; discriminate].
    - cbn [tNonnil flat_map]. rewrite app_nil_r. cbn [tDefinitions preorder]. split.
      + intros ([|y [|z a]] & b & E & Ek); cbn in E; [injection E as <- _; discriminate|injection E as _ <- _; discriminate|]. injection E as <- <- E. exists a, b. split; [exact E|exact Ek].
      + intros (a & b & E & Ek). exists (NDocument doc :: NDefinitions (d0 :: ds) :: a), b. cbn [app]. rewrite E. split; [reflexivity|exact Ek]. }
  rewrite E, (split_defs _ None x K L). split.
  - intros (ps1 & i & d & ps2 & E1 & Hin & HK). exists i, d, ps1, ps2. split; [exact E1|]. split; [|exact HK]. apply (preorder_below _ (ok_definition (i, d))). exact Hin.
  - intros (i & d & ps1 & ps2 & E1 & Hin & HK). exists ps1, i, d, ps2. split; [exact E1|]. split; [|exact HK]. apply (preorder_below _ (ok_definition (i, d))). exact Hin.
Qed.
Lemma nodes_owned doc x (L : low x = true) i : (exists a b, nodes doc = a ++ x :: b /\ owner None a = Some i) <->
  exists j d, nth_error (doc_defs doc) j = Some d /\ below (NDefinition j d) x /\ owns doc i j.
Proof.
  rewrite nodes_split by exact L. split.
  - intros (j & d & ps1 & ps2 & E & Hb & HK). exists j, d. split; [apply numbered_In; rewrite E; apply in_app_iff; right; left; reflexivity|]. split; [exact Hb|].
    apply (lastex_owns doc ps1 j d ps2); [exact E|]. symmetry. exact HK.
  - intros (j & d & Hn & Hb & Ho). destruct (numbered_split _ 0 _ _ Hn) as (ps1 & ps2 & E & _). exists j, d, ps1, ps2. split; [exact E|]. split; [exact Hb|].
    symmetry. apply (lastex_owns doc ps1 j d ps2); [exact E|exact Ho].
Qed.

Lemma new_context_same doc s : qsame (ctx0 doc s) (new_context doc s).
Proof. rewrite new_context_fold. apply (qfold_ok (nodes doc) (ctx0 doc s)). Qed.

Theorem variable_usages_spec doc s i v : In v (variable_usages (new_context doc s) i) <-> exists j, owns doc i j /\ occurs doc j v.
Proof.
  unfold variable_usages. rewrite new_context_fold. destruct (qfold_ok (nodes doc) (ctx0 doc s)) as (_ & _ & Va & _). rewrite Va. cbn [ctx0 c_vars c_exec pget].
  split.
  - intros [[]|H]. apply nodes_owned in H; [|reflexivity]. destruct H as (j & d & Hn & Hb & Ho). exists j. split; [exact Ho|]. exists d. auto.
  - intros (j & Ho & d & Hn & Hb). right. apply nodes_owned; [reflexivity|]. exists j, d. auto.
Qed.

(** Spreads only occur in executable definitions, which own themselves. *)
Lemma spread_exec i d name ds : below (NDefinition i d) (NFragmentSpread (SSpread name ds)) -> is_exec d = true.
Proof.
  intros H. unfold is_exec. inversion H as [|p k m Hk Hb]; subst. cbn [kids] in Hk. destruct (def_body d) eqn:E; try reflexivity;
    destruct Hk as [<-|[]]; apply below_ts in Hb; try reflexivity; discriminate Hb.
Qed.
Lemma owns_refl doc i d : nth_error (doc_defs doc) i = Some d -> is_exec d = true -> owns doc i i.
Proof. intros H E. split; [lia|]. split; [eauto|]. intros; lia. Qed.
Lemma owns_exec doc i j d : owns doc i j -> nth_error (doc_defs doc) j = Some d -> is_exec d = true -> i = j.
Proof.
  intros (H & _ & Ho) Hn E. destruct (Nat.eq_dec i j) as [|Hne]; [assumption|]. specialize (Ho j d ltac:(lia) Hn). congruence.
Qed.
Theorem referenced_fragments_spec doc s i j : In j (referenced_fragments (new_context doc s) i) <-> spreads doc i j.
Proof.
  unfold referenced_fragments. rewrite new_context_fold. destruct (qfold_ok (nodes doc) (ctx0 doc s)) as (_ & _ & _ & Re & _). rewrite Re. cbn [ctx0 c_refs c_exec c_doc pget].
  split.
  - intros [[]|(a & b & name & ds & dj & f & E & Eo & Hj & Ef & En)]. 
    destruct (proj1 (nodes_owned doc (NFragmentSpread (SSpread name ds)) eq_refl i)) as (k & d & Hn & Hb & Ho); [eauto|].
    pose proof (owns_exec _ _ _ _ Ho Hn (spread_exec _ _ _ _ Hb)). subst k. exists d, name, ds, f, dj. apply numbered_In in Hj. auto.
  - intros (d & name & ds & f & dj & Hn & Hb & Hj & Ef & En). right.
    destruct (proj2 (nodes_owned doc (NFragmentSpread (SSpread name ds)) eq_refl i)) as (a & b & E & Eo).
    { exists i, d. split; [exact Hn|]. split; [exact Hb|]. eapply owns_refl; [exact Hn|]. eapply spread_exec, Hb. }
    exists a, b, name, ds, dj, f. split; [exact E|]. split; [exact Eo|]. split; [apply numbered_In; exact Hj|]. auto.
Qed.

(** ** The recursive helpers are depth-first searches *)
Lemma fold_none {X Y} (f : X -> Y -> option X) l : fold_left (fun o y => match o with None => None | Some x => f x y end) l None = None.
Proof. induction l; auto. Qed.
Lemma fold_ext {X Y} (f g : X -> Y -> X) : (forall x y, f x y = g x y) -> forall l x, fold_left f l x = fold_left g l x.
Proof. intros H l. induction l as [|y l IH]; intros x; [reflexivity|]. cbn. rewrite H. apply IH. Qed.
Lemma rvu_dfs c : forall fuel i st, rvu fuel c i st = dfs (referenced_fragments c) (variable_usages c) (fun _ => []) addset fuel i st.
Proof.
  induction fuel as [|f IH]; intros i st; [reflexivity|]. cbn [rvu dfs]. unfold inss at 2. apply fold_ext. intros [[agg seen]|] rd; [|reflexivity].
  cbn [inss fold_left]. destruct (inNat rd seen); [reflexivity|]. apply IH.
Qed.
Lemma rrf_dfs c : forall fuel i st, rrf fuel c i st = dfs (referenced_fragments c) (fun _ => []) (fun rd => [rd]) addnat fuel i st.
Proof.
  induction fuel as [|f IH]; intros i [agg0 seen0]; [reflexivity|]. cbn [rrf dfs]. apply fold_ext. intros [[agg seen]|] rd; [|reflexivity].
  cbn [inss fold_left]. destruct (inNat rd seen); [reflexivity|]. apply IH.
Qed.
Lemma addset_spec x l y : In y (addset x l) <-> y = x \/ In y l.
Proof.
  unfold addset. destruct (inb x l) eqn:E; cbn; [apply inb_In in E|]; intuition congruence.
Qed.
Lemma addset_nodup x l : NoDup l -> NoDup (addset x l).
Proof. unfold addset. destruct (inb x l) eqn:E; [auto|]. intros H. constructor; [apply inb_notIn; exact E|exact H]. Qed.
Lemma addnat_spec x l y : In y (addnat x l) <-> y = x \/ In y l.
Proof. unfold addnat. destruct (inNat x l) eqn:E; cbn; [apply inNat_In in E|]; intuition congruence. Qed.
Lemma addnat_nodup x l : NoDup l -> NoDup (addnat x l).
Proof. unfold addnat. destruct (inNat x l) eqn:E; [auto|]. intros H. constructor; [apply inNat_notIn; exact E|exact H]. Qed.

Lemma refs_universe doc s i j : In j (referenced_fragments (new_context doc s) i) -> In j (seq 0 (List.length (doc_defs doc))).
Proof.
  rewrite referenced_fragments_spec. intros (d & name & ds & f & dj & _ & _ & Hj & _). apply in_seq. split; [lia|]. apply nth_error_Some. congruence.
Qed.
Lemma ctx_fuel_new doc s : ctx_fuel (new_context doc s) = S (S (List.length (doc_defs doc))).
Proof. unfold ctx_fuel. destruct (new_context_same doc s) as (E & _). rewrite E. reflexivity. Qed.
Lemma clos_ext (R R' : nat -> nat -> Prop) a b : (forall x y, R x y <-> R' x y) -> clos_trans nat R a b <-> clos_trans nat R' a b.
Proof.
  intros H. split; intros C; induction C as [x y Hxy|x y z _ IH1 _ IH2]; [apply t_step, H, Hxy|eapply t_trans; eassumption|apply t_step, H, Hxy|eapply t_trans; eassumption].
Qed.
Definition reaches (doc : document) : nat -> nat -> Prop := clos_trans nat (spreads doc).

Theorem recursive_variable_usages_spec doc s i : exists l, recursive_variable_usages (new_context doc s) i = Some l /\ NoDup l /\
  forall v, In v l <-> exists j, (j = i \/ reaches doc i j) /\ In v (variable_usages (new_context doc s) j).
Proof.
  unfold recursive_variable_usages. rewrite rvu_dfs, ctx_fuel_new.
  destruct (dfs_reach (referenced_fragments (new_context doc s)) (variable_usages (new_context doc s)) (fun _ => []) addset addset_spec addset_nodup
    (seq 0 (List.length (doc_defs doc))) (refs_universe doc s) (S (S (List.length (doc_defs doc)))) i) as (agg & seen & E & Nd & H); [rewrite seq_length; lia|].
  exists agg. rewrite E. split; [reflexivity|]. split; [exact Nd|]. intros v. rewrite H. split.
  - intros (j & Hj & [Hv|(k & _ & [])]). exists j. split; [|exact Hv]. destruct Hj as [->|Hj]; [left; reflexivity|right].
    apply (clos_ext _ (spreads doc)) in Hj; [exact Hj|]. intros x y. apply referenced_fragments_spec.
  - intros (j & Hj & Hv). exists j. split; [|left; exact Hv]. destruct Hj as [->|Hj]; [left; reflexivity|right].
    apply (clos_ext _ (spreads doc)); [|exact Hj]. intros x y. apply referenced_fragments_spec.
Qed.
Theorem recursively_referenced_fragments_spec doc s i : exists l, recursively_referenced_fragments (new_context doc s) i = Some l /\ NoDup l /\
  forall j, In j l <-> reaches doc i j.
Proof.
  unfold recursively_referenced_fragments.
  assert (X : forall x y, (fun a b => In b (referenced_fragments (new_context doc s) a)) x y <-> spreads doc x y) by (intros; apply referenced_fragments_spec).
  destruct (referenced_fragments (new_context doc s) i) as [|r0 rs] eqn:Er.
  - exists []. split; [reflexivity|]. split; [constructor|]. intros j. split; [intros []|]. intros H. apply clos_trans_t1n in H.
    assert (H1 : exists y, spreads doc i y) by (inversion H; eauto). destruct H1 as (y & H1). apply (referenced_fragments_spec doc s) in H1. rewrite Er in H1. exact H1.
  - rewrite rrf_dfs, ctx_fuel_new.
    destruct (dfs_reach (referenced_fragments (new_context doc s)) (fun _ => []) (fun rd => [rd]) addnat addnat_spec addnat_nodup
      (seq 0 (List.length (doc_defs doc))) (refs_universe doc s) (S (S (List.length (doc_defs doc)))) i) as (agg & seen & E & Nd & H); [rewrite seq_length; lia|].
    exists agg. rewrite E. split; [reflexivity|]. split; [exact Nd|]. intros j. rewrite H. split.
    + intros (k & Hk & [[]|(j' & Hj & [->|[]])]). apply (referenced_fragments_spec doc s) in Hj. destruct Hk as [->|Hk]; [apply t_step, Hj|].
      eapply t_trans; [|apply t_step, Hj]. apply (clos_ext _ _ _ _ X), Hk.
    + intros Hr. apply clos_trans_tn1 in Hr. inversion Hr as [z Hs Ez|y z Hs Hr' Ez]; subst.
      * exists i. split; [left; reflexivity|]. right. exists j. split; [apply (referenced_fragments_spec doc s), Hs|left; reflexivity].
      * exists y. split; [right; apply (clos_ext _ _ _ _ X); apply clos_tn1_trans; assumption|]. right. exists j. split; [apply (referenced_fragments_spec doc s), Hs|left; reflexivity].
Qed.
