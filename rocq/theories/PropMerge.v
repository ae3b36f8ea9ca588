(** * PropMerge: C70 — building a schema merges the extensions into the document itself, once.
    Model: Merge.v, on the linked lists of LinkedList.v. *)
From Verif Require Import Base AST LinkedList Merge MergeProofs Context Rules SchemaBuild PropBuild.
Import AST.

(** ** Specification *)
Section Heap.
Context {A : Type}.
Notation heap := (@heap A).
(** In [h] the list at [p] reads [xs]. *)
Definition reads (h : heap) (p : ptr) (xs : list A) : Prop := exists ads, rep h p ads xs.
(** The lists at [p] and [q] have no cell in common. *)
Definition apart (h : heap) (p q : ptr) : Prop := forall ads xs bds ys, rep h p ads xs -> rep h q bds ys -> forall a, In a ads -> ~ In a bds.
(** ForEach never comes to the end of the list at [p]. *)
Definition endless (h : heap) (p : ptr) : Prop := forall n, forEach n h p = Diverge.
End Heap.
(** A list-valued field of the nodes [N], which stand for the definitions [D]; [joins_it x]: the field of an extension [x] is
    joined to the definition's. *)
Record listfield (N D : Type) := mkF { elem : Type; heap_of : store -> @heap elem; at_ : N -> ptr; of_ : D -> list elem; taken : N -> bool; joins_it : D -> bool }.
Arguments elem {N D}. Arguments heap_of {N D}. Arguments at_ {N D}. Arguments of_ {N D}. Arguments taken {N D}. Arguments joins_it {N D}.
Definition field {E} (h : store -> @heap E) (a : tnode -> ptr) (o : tydef -> list E) (ks : list tkindT) : listfield tnode tydef :=
  mkF tnode tydef E h a o (fun x => existsb (tkind_eqb (n_kind x)) ks) (fun x => existsb (tkind_eqb (t_kind x)) ks).
Definition type_fields : list (listfield tnode tydef) :=
  [ field h_dirs n_dirs t_dirs [KScalar; KObject; KInterface; KUnion; KEnum; KInputObject];
    field h_impl n_impl t_impl [KObject]; field h_fields n_fields t_fields [KObject; KInterface];
    field h_members n_members t_members [KUnion]; field h_values n_values t_values [KEnum]; field h_inputs n_inputs t_inputs [KInputObject] ].
Definition schema_fields : list (listfield snode schemadef) :=
  [ mkF snode schemadef directive h_sdirs n_sdirs s_dirs (fun _ => true) (fun _ => true); mkF snode schemadef optype h_ops n_sops s_ops (fun _ => true) (fun _ => true) ].
(** Definitions with their extensions, laid out in the memory [s]: every node shows its definition, no two lists share cells, and no link dangles. *)
Record laid_out {N D} (fs : list (listfield N D)) (same : N -> D -> Prop) (s : store) (js : list (N * list N)) (ds : list (D * list D)) : Prop := mkLaid {
  lo_same : Forall2 (fun j d => same (fst j) (fst d) /\ Forall2 same (snd j) (snd d)) js ds;
  lo_reads : forall f, In f fs -> Forall2 (fun j d => reads (heap_of f s) (at_ f (fst j)) (of_ f (fst d)) /\ Forall2 (fun x y => reads (heap_of f s) (at_ f x) (of_ f y)) (snd j) (snd d)) js ds;
  lo_apart : forall f, In f fs -> ForallOrdPairs (apart (heap_of f s)) (flat_map (fun j => at_ f (fst j) :: map (at_ f) (snd j)) js);
  lo_closed : forall f, In f fs -> forall a c b, nth_error (heap_of f s) a = Some c -> nxt c = Some b -> b < List.length (heap_of f s) }.
Definition same_kind (t : tnode) (d : tydef) : Prop := n_kind t = t_kind d.
Definition types_laid_out := laid_out type_fields same_kind.
Definition schemas_laid_out := laid_out schema_fields (fun _ _ => True).
Definition shows (s : store) (t : tnode) (d : tydef) : Prop := n_kind t = t_kind d /\ forall f, In f type_fields -> reads (heap_of f s) (at_ f t) (of_ f d).

(** ** Lemmas *)
Section Level.
Context {N D : Type}.
Implicit Types (f : listfield N D) (js : list (N * list N)) (ds : list (D * list D)).
Definition proj f js : list (ptr * list ptr) := map (fun j => (at_ f (fst j), map (at_ f) (filter (taken f) (snd j)))) js.
Definition ptrs f js : list ptr := flat_map (fun j => at_ f (fst j) :: map (at_ f) (snd j)) js.
Definition agrees f (js : list (N * list N)) (ds : list (D * list D)) : Prop := Forall2 (fun j d => Forall2 (fun x y => taken f x = joins_it f y) (snd j) (snd d)) js ds.
Definition contents f (d : D * list D) : list (elem f) * list (list (elem f)) := (of_ f (fst d), map (of_ f) (filter (joins_it f) (snd d))).
Definition holds_job f (h : @heap (elem f)) (j : N * list N) (d : D * list D) : Prop := reads h (at_ f (fst j)) (of_ f (fst d)) /\ Forall2 (fun x y => reads h (at_ f x) (of_ f y)) (snd j) (snd d).

Lemma ForallOrdPairs_app {T} (R : T -> T -> Prop) l m : ForallOrdPairs R (l ++ m) -> ForallOrdPairs R l /\ ForallOrdPairs R m /\ forall a b, In a l -> In b m -> R a b.
Proof.
  induction l as [|x l IH]; cbn; intros H; [split; [constructor|]; split; [exact H|intros a b []]|]. inversion H as [|? ? F H']; subst. destruct (IH H') as (I1 & I2 & I3).
  rewrite Forall_app in F. destruct F as [F1 F2]. split; [constructor; assumption|]. split; [exact I2|]. intros a b [<-|Ha] Hb; [rewrite Forall_forall in F2; auto|auto].
Qed.
(** the lists of one job's taken extensions *)
Lemma load_lists f (h : @heap (elem f)) xs : forall ys, Forall2 (fun x y => reads h (at_ f x) (of_ f y)) xs ys -> Forall2 (fun x y => taken f x = joins_it f y) xs ys ->
  ForallOrdPairs (apart h) (map (at_ f) xs) ->
  exists bs, lists h (map (at_ f) (filter (taken f) xs)) bs (map (of_ f) (filter (joins_it f) ys)) /\ NoDup (List.concat bs) /\
    forall a, In a (List.concat bs) -> exists x ads y, In x (filter (taken f) xs) /\ rep h (at_ f x) ads y /\ In a ads.
Proof.
  induction xs as [|x xs IH]; intros ys R T P; inversion R as [|? y ? ys' (ads & Rx) R']; subst.
  - exists []. split; [constructor|]. split; [constructor|]. intros a [].
  - inversion T as [|? ? ? ? Tx T']; subst. cbn [map] in P. inversion P as [|? ? Px P']; subst. destruct (IH ys' R' T' P') as (bs & L & Nd & I). cbn [filter]. rewrite <- Tx. destruct (taken f x) eqn:E.
    + exists (ads :: bs). cbn [map List.concat]. split; [constructor; assumption|]. split.
      * apply NoDup_app_iff. split; [eapply rep_nodup; exact Rx|]. split; [exact Nd|]. intros a Ha Hb. destruct (I a Hb) as (x' & ads' & y' & Hx' & Rx' & Ha').
        rewrite Forall_forall in Px. apply filter_In in Hx'. exact (Px (at_ f x') (in_map _ _ _ (proj1 Hx')) _ _ _ _ Rx Rx' a Ha Ha').
      * intros a Ha. apply in_app_iff in Ha as [Ha|Ha].
        -- exists x, ads, (of_ f y). split; [left; reflexivity|auto].
        -- destruct (I a Ha) as (x' & ads' & y' & Hx' & Rx'). exists x', ads', y'. split; [right; exact Hx'|exact Rx'].
    + exists bs. split; [exact L|]. split; [exact Nd|]. intros a Ha. destruct (I a Ha) as (x' & ads' & y' & Hx' & Rx'). eauto 6.
Qed.
Definition joined_ptrs f js : list ptr := flat_map (fun j => at_ f (fst j) :: map (at_ f) (filter (taken f) (snd j))) js.
Lemma load f (h : @heap (elem f)) js : forall ds, Forall2 (holds_job f h) js ds -> agrees f js ds -> ForallOrdPairs (apart h) (ptrs f js) ->
  exists gs, Forall2 (fun g d => (g_xs g, g_ys g) = contents f d) gs ds /\ map call gs = proj f js /\ Forall (good h) gs /\ NoDup (List.concat (map cells gs)) /\
    forall a, In a (List.concat (map cells gs)) -> exists p ads y, In p (joined_ptrs f js) /\ rep h p ads y /\ In a ads.
Proof.
  induction js as [|[t xs] js IH]; intros ds R T P; inversion R as [|? [d ys] ? ds' [(ads & Rt) Rx] R']; subst.
  - exists []. repeat split; try constructor. intros a [].
  - inversion T as [|? ? ? ? Tx T']; subst. cbn [fst snd] in *. unfold ptrs in P. cbn [flat_map fst snd] in P. apply ForallOrdPairs_app in P as (P1 & P2 & P3). inversion P1 as [|? ? Pt Px]; subst.
    destruct (load_lists f h xs ys Rx Tx Px) as (bs & L & Nd & I). destruct (IH ds' R' T' P2) as (gs & C & M & G & Nd' & I').
    exists (mkJ (at_ f t) (map (at_ f) (filter (taken f) xs)) ads (of_ f d) bs (map (of_ f) (filter (joins_it f) ys)) :: gs).
    assert (I2 : forall a, In a (ads ++ List.concat bs) -> exists p ads' y, In p (at_ f t :: map (at_ f) (filter (taken f) xs)) /\ rep h p ads' y /\ In a ads').
    { intros a Ha. apply in_app_iff in Ha as [Ha|Ha]; [exists (at_ f t), ads, (of_ f d); split; [left; reflexivity|auto]|].
      destruct (I a Ha) as (x & ads' & y & Hx & Rx'). exists (at_ f x), ads', y. split; [right; apply in_map; exact Hx|exact Rx']. }
    assert (Sub : forall p, In p (at_ f t :: map (at_ f) (filter (taken f) xs)) -> In p (at_ f t :: map (at_ f) xs)).
    { intros p [<-|Hp]; [left; reflexivity|]. right. apply in_map_iff in Hp as (x & <- & Hx). apply filter_In in Hx. apply in_map. tauto. }
    assert (Sub' : forall p, In p (joined_ptrs f js) -> In p (ptrs f js)).
    { intros p Hp. apply in_flat_map in Hp as ([t' xs'] & Hj & Hp). apply in_flat_map. exists (t', xs'). split; [exact Hj|]. cbn in *. destruct Hp as [<-|Hp]; [left; reflexivity|]. right.
      apply in_map_iff in Hp as (x & <- & Hx). apply filter_In in Hx. apply in_map. tauto. }
    split; [constructor; [reflexivity|exact C]|]. split; [unfold proj; cbn [map call g_p g_qs]; rewrite M; reflexivity|].
    split; [constructor; [split; assumption|exact G]|]. split.
    + cbn [map List.concat]. apply NoDup_app_iff. unfold cells at 1 3. cbn [g_ads g_bs]. split; [|split; [exact Nd'|]].
      * apply NoDup_app_iff. split; [eapply rep_nodup; exact Rt|]. split; [exact Nd|]. intros a Ha Hb. destruct (I a Hb) as (x & ads' & y & Hx & Rx' & Ha').
        rewrite Forall_forall in Pt. apply filter_In in Hx. exact (Pt (at_ f x) (in_map _ _ _ (proj1 Hx)) _ _ _ _ Rt Rx' a Ha Ha').
      * intros a Ha Hb. destruct (I2 a Ha) as (p & ads1 & y1 & Hp & Rp & Ha1). destruct (I' a Hb) as (q & ads2 & y2 & Hq & Rq & Ha2).
        exact (P3 p q (Sub p Hp) (Sub' q Hq) _ _ _ _ Rp Rq a Ha1 Ha2).
    + cbn [map List.concat]. intros a Ha. unfold joined_ptrs. cbn [flat_map fst snd]. apply in_app_iff in Ha as [Ha|Ha].
      * destruct (I2 a Ha) as (p & ads' & y & Hp & Rp). exists p, ads', y. split; [apply in_app_iff; left; exact Hp|exact Rp].
      * destruct (I' a Ha) as (p & ads' & y & Hp & Rp). exists p, ads', y. split; [apply in_app_iff; right; exact Hp|exact Rp].
Qed.
Lemma apart_sym {A} (h : @heap A) p q : apart h p q -> apart h q p.
Proof. intros H ads xs bds ys R1 R2 a Ha Hb. exact (H _ _ _ _ R2 R1 a Hb Ha). Qed.
Lemma OrdPairs_mid {T} (R : T -> T -> Prop) (Sy : forall a b, R a b -> R b a) l x m : ForallOrdPairs R (l ++ x :: m) -> forall q, In q (l ++ m) -> R x q.
Proof.
  intros H q Hq. apply ForallOrdPairs_app in H as (_ & H2 & H3). inversion H2 as [|? ? F _]; subst. apply in_app_iff in Hq as [Hq|Hq]; [apply Sy, H3; [exact Hq|left; reflexivity]|].
  rewrite Forall_forall in F. auto.
Qed.
Lemma joined_incl f js q : In q (joined_ptrs f js) -> In q (ptrs f js).
Proof.
  intros Hp. apply in_flat_map in Hp as ([t' xs'] & Hj & Hp). apply in_flat_map. exists (t', xs'). split; [exact Hj|]. cbn in *. destruct Hp as [<-|Hp]; [left; reflexivity|]. right.
  apply in_map_iff in Hp as (x & <- & Hx). apply filter_In in Hx. apply in_map. tauto.
Qed.
Lemma untaken_apart f (h : @heap (elem f)) js k t xs i x : ForallOrdPairs (apart h) (ptrs f js) -> nth_error js k = Some (t, xs) -> nth_error xs i = Some x -> taken f x = false ->
  forall q, In q (joined_ptrs f js) -> apart h (at_ f x) q.
Proof.
  intros P Hk Hi T q Hq. apply nth_error_split in Hk as (jl & jr & -> & _). apply nth_error_split in Hi as (l & r & -> & _).
  unfold ptrs in P. rewrite flat_map_app in P. cbn [flat_map fst snd] in P. rewrite map_app in P. cbn [map] in P.
  replace (flat_map (fun j => at_ f (fst j) :: map (at_ f) (snd j)) jl ++ (at_ f t :: map (at_ f) l ++ at_ f x :: map (at_ f) r) ++ flat_map (fun j => at_ f (fst j) :: map (at_ f) (snd j)) jr)
    with ((ptrs f jl ++ at_ f t :: map (at_ f) l) ++ at_ f x :: map (at_ f) r ++ ptrs f jr) in P by (unfold ptrs; rewrite <- !app_assoc; cbn [app]; rewrite <- !app_assoc; reflexivity).
  apply (OrdPairs_mid (apart h) (apart_sym h) _ _ _ P). unfold joined_ptrs in Hq. rewrite flat_map_app in Hq. cbn [flat_map fst snd] in Hq. rewrite filter_app in Hq. cbn [filter] in Hq. rewrite T, map_app in Hq.
  assert (F : forall l q, In q (map (at_ f) (filter (taken f) l)) -> In q (map (at_ f) l)) by (intros l0 q0 H0; apply in_map_iff in H0 as (z & <- & Hz); apply filter_In in Hz; apply in_map; tauto).
  apply in_app_iff in Hq as [Hq|Hq]; [apply in_app_iff; left; apply in_app_iff; left; apply joined_incl; exact Hq|].
  apply in_app_iff in Hq as [[<-|Hq]|Hq].
  - apply in_app_iff. left. apply in_app_iff. right. left. reflexivity.
  - apply in_app_iff in Hq as [Hq|Hq]; [apply in_app_iff; left; apply in_app_iff; right; right; auto|]. apply in_app_iff. right. apply in_app_iff. left. auto.
  - apply in_app_iff. right. apply in_app_iff. right. apply joined_incl. exact Hq.
Qed.
Lemma Forall2_nth {X Y} (R : X -> Y -> Prop) l m : Forall2 R l m -> forall k x y, nth_error l k = Some x -> nth_error m k = Some y -> R x y.
Proof. induction 1 as [|a b l m H H' IH]; intros [|k] x y; cbn; try discriminate; [intros E E'; injection E as <-; injection E' as <-; exact H|apply IH]. Qed.
Lemma Forall2_nth_ex {X Y} (R : X -> Y -> Prop) l m : Forall2 R l m -> forall k x, nth_error l k = Some x -> exists y, nth_error m k = Some y /\ R x y.
Proof. induction 1 as [|a b l m H H' IH]; intros [|k] x; cbn; try discriminate; [intros E; injection E as <-; eauto|apply IH]. Qed.
Lemma Forall2_nth_ex2 {X Y} (R : X -> Y -> Prop) l m : Forall2 R l m -> forall k y, nth_error m k = Some y -> exists x, nth_error l k = Some x /\ R x y.
Proof. induction 1 as [|a b l m H H' IH]; intros [|k] x; cbn; try discriminate; [intros E; injection E as <-; eauto|apply IH]. Qed.
Lemma same_length_app {T} (l l' : list T) x x' r r' : l ++ x :: r = l' ++ x' :: r' -> List.length l = List.length l' -> x = x' /\ r = r'.
Proof. revert l'. induction l as [|a l IH]; intros [|b l'] E L; cbn in *; try discriminate; injection E as E1 E2; [auto|]. apply (IH l'); [exact E2|congruence]. Qed.
Lemma filter_agree f xs ys : Forall2 (fun x y => taken f x = joins_it f y) xs ys -> List.length (filter (taken f) xs) = List.length (filter (joins_it f) ys).
Proof. induction 1 as [|x y xs ys E H IH]; [reflexivity|]. cbn. rewrite E. destruct (joins_it f y); cbn; congruence. Qed.
Lemma Forall2_split {X Y} (R : X -> Y -> Prop) l x r l' y r' : Forall2 R (l ++ x :: r) (l' ++ y :: r') -> List.length l = List.length l' -> Forall2 R l l' /\ R x y /\ Forall2 R r r'.
Proof.
  revert l'. induction l as [|a l IH]; intros [|b l'] H L; cbn in *; try discriminate; inversion H; subst; [auto|]. destruct (IH l') as (Ha & Hb & Hc); [assumption|congruence|]. auto.
Qed.

(** what a list of the extensions reads after the build *)
Definition extension_after f (base : list (elem f)) (y : D) (later : list D) : list (elem f) :=
  if joins_it f y then match base with [] => of_ f y | _ => plus (of_ f y) (map (of_ f) (filter (joins_it f) later)) end else of_ f y.
Definition harmless_in f (d : D * list D) : Prop := of_ f (fst d) = [] \/ Forall (eq []) (removelast (map (of_ f) (filter (joins_it f) (snd d)))).

Definition leveled f (h h' : @heap (elem f)) js ds n : Prop :=
   List.length h' = List.length h /\
   (forall k j d, nth_error js k = Some j -> nth_error ds k = Some d ->
      reads h' (at_ f (fst j)) (plus (of_ f (fst d)) (map (of_ f) (filter (joins_it f) (snd d)))) /\
      forall i x y, nth_error (snd j) i = Some x -> nth_error (snd d) i = Some y -> reads h' (at_ f x) (extension_after f (of_ f (fst d)) y (skipn (S i) (snd d)))) /\
   (forall p xs, reads h p xs -> (forall q, In q (joined_ptrs f js) -> apart h p q) -> reads h' p xs) /\
   (Forall (harmless_in f) ds -> exists h'', joinss n h' (proj f js) = Done h'' /\
      forall k j d, nth_error js k = Some j -> nth_error ds k = Some d ->
        (of_ f (fst d) <> [] -> (exists x, In x (snd d) /\ joins_it f x = true /\ of_ f x <> []) -> endless h'' (at_ f (fst j))) /\
        (of_ f (fst d) = [] \/ (forall x, In x (snd d) -> joins_it f x = true -> of_ f x = []) -> reads h'' (at_ f (fst j)) (of_ f (fst d)))) /\ 
   (~ Forall (harmless_in f) ds -> forall m, joinss m h' (proj f js) = Diverge).
Lemma level f (h : @heap (elem f)) js ds n : Forall2 (holds_job f h) js ds -> agrees f js ds -> ForallOrdPairs (apart h) (ptrs f js) -> List.length h < n ->
  exists h', joinss n h (proj f js) = Done h' /\ leveled f h h' js ds n.
Proof.
  intros R T P F. destruct (load f h js ds R T P) as (gs & C & M & G & Nd & I). destruct (joinss_ok n gs h G Nd F) as (h' & J & L & Dn & Fr).
  exists h'. unfold leveled. rewrite <- M. split; [exact J|]. split; [exact L|].
  assert (Frame : forall p xs, reads h p xs -> (forall q, In q (joined_ptrs f js) -> apart h p q) -> reads h' p xs).
  { intros p xs (ads & Rp) A. exists ads. eapply rep_frame; [|exact Rp]. intros a Ha. apply Fr. intros Hi. destruct (I a Hi) as (q & bds & y & Hq & Rq & Hb). exact (A q Hq _ _ _ _ Rp Rq a Ha Hb). }
  assert (Zip : forall k j d, nth_error js k = Some j -> nth_error ds k = Some d -> exists g, nth_error gs k = Some g /\ In g gs /\ (g_xs g, g_ys g) = contents f d /\ g_p g = at_ f (fst j) /\ g_qs g = map (at_ f) (filter (taken f) (snd j))).
  { intros k j d Hj Hd. destruct (Forall2_nth_ex2 _ _ _ C k d Hd) as (g & Hg & Eg). exists g. split; [exact Hg|]. split; [eapply nth_error_In; exact Hg|]. split; [exact Eg|].
    assert (E : nth_error (map call gs) k = Some (call g)) by (apply map_nth_error; exact Hg). rewrite M in E. unfold proj in E. rewrite (map_nth_error _ _ _ Hj) in E. injection E as E1 E2. auto. }
  split; [|split; [exact Frame|]].
  - intros k j d Hj Hd. destruct (Zip k j d Hj Hd) as (g & _ & Hg & Eg & Ep & Eq). injection Eg as Ex Ey. rewrite Forall_forall in Dn, G. pose proof (Dn g Hg) as Dg. destruct (G g Hg) as [Gr Gl]. unfold done in Dg.
    split.
    + rewrite <- Ep, <- Ex, <- Ey. destruct (g_xs g) as [|x xs] eqn:E0; [destruct Dg as [Dr _]; rewrite E0 in Dr; eexists; exact Dr|]. eexists. exact Dg.
    + intros i x y Hx Hy. destruct j as [t xs], d as [d ys]. cbn [fst snd] in *.
      pose proof (Forall2_nth _ _ _ R k _ _ Hj Hd) as [_ Rj]. cbn [snd] in Rj. pose proof (Forall2_nth _ _ _ T k _ _ Hj Hd) as Tj. cbn [snd] in Tj.
      pose proof (Forall2_nth _ _ _ Rj i x y Hx Hy) as Rx. pose proof (Forall2_nth _ _ _ Tj i x y Hx Hy) as Tx. unfold extension_after. destruct (joins_it f y) eqn:Ej.
      * rewrite <- Ex. destruct (g_xs g) as [|x0 xs0] eqn:E0.
        -- destruct Dg as [_ Dl]. rewrite Eq, Ey in Dl. destruct (nth_error_split _ _ Hx) as (l & r & -> & Ll). destruct (nth_error_split _ _ Hy) as (l' & r' & -> & Ll').
           destruct (Forall2_split _ _ _ _ _ _ _ Tj ltac:(congruence)) as (Tl & _ & Tr). rewrite !filter_app in Dl. cbn [filter] in Dl. rewrite Tx, Ej, !map_app in Dl. cbn [map] in Dl.
           destruct (lists_nth _ _ _ _ _ _ _ Dl eq_refl) as (bl & b & br & yl & y' & yr & _ & Eyl & L1 & Ry & _).
           assert (Len : List.length (map (of_ f) (filter (joins_it f) l')) = List.length yl).
           { rewrite map_length, <- (filter_agree f l l' Tl), <- (map_length (at_ f)). clear -L1. induction L1; cbn; congruence. }
           destruct (same_length_app _ _ _ _ _ _ Eyl Len) as [-> _]. exists b. exact Ry.
        -- rewrite Eq, Ey in Gl. destruct (nth_error_split _ _ Hx) as (l & r & -> & Ll). destruct (nth_error_split _ _ Hy) as (l' & r' & -> & Ll').
           destruct (Forall2_split _ _ _ _ _ _ _ Tj ltac:(congruence)) as (Tl & _ & Tr). rewrite !filter_app in Gl. cbn [filter] in Gl. rewrite Tx, Ej, !map_app in Gl. cbn [map] in Gl.
           rewrite Ey, filter_app in Dg. cbn [filter] in Dg. rewrite Ej, map_app in Dg. cbn [map] in Dg.
           destruct (joins_suffix h h' (g_p g) (g_ads g) (x0 :: xs0) _ _ _ _ _ Gr Gl Dg) as (yl & y' & yr & Eyl & Len & (c & Rc)).
           assert (Len' : List.length (map (of_ f) (filter (joins_it f) l')) = List.length yl) by (rewrite Len, !map_length, (filter_agree f l l' Tl); reflexivity).
           destruct (same_length_app _ _ _ _ _ _ Eyl Len') as [-> Er]. subst yr. exists c. rewrite <- Ll'.
           replace (skipn (S (List.length l')) (l' ++ y :: r')) with r'; [exact Rc|]. clear. induction l' as [|a l IH]; [reflexivity|exact IH].
      * apply Frame; [exact Rx|]. apply (untaken_apart f h js k t xs i x P Hj Hx). congruence.
  - destruct (again n h gs h' G Dn Nd ltac:(lia) ltac:(congruence)) as [A1 A2].
    assert (Hm : Forall harmless gs <-> Forall (harmless_in f) ds).
    { clear -C. induction C as [|g d gs ds E H IH]; [split; constructor|]. injection E as E1 E2. unfold harmless, harmless_in at 1.
      split; intros X; inversion X as [|? ? X1 X2]; subst; constructor; try tauto; unfold harmless, harmless_in in *; rewrite ?E1, ?E2 in *; exact X1. }
    split.
    + intros H. apply Hm in H. destruct (A1 H) as (h'' & J2 & _ & T2 & _). exists h''. split; [exact J2|]. intros k j d Hj Hd.
      destruct (Zip k j d Hj Hd) as (g & _ & Hg & Eg & Ep & _). injection Eg as Ex Ey. rewrite Forall_forall in T2. pose proof (T2 g Hg) as Tg. unfold twice in Tg. rewrite Ex in Tg. split.
      * intros Hne (x & Hx & Hk & Hox). assert (Hc : List.concat (g_ys g) <> []).
        { rewrite Ey. intros E. apply concat_nils in E. rewrite Forall_forall in E. apply Hox. symmetry. apply E. apply in_map. apply filter_In. auto. }
        destruct (of_ f (fst d)) as [|a0 l0]; [congruence|]. destruct (List.concat (g_ys g)) as [|a1 l1]; [congruence|]. destruct Tg as (Lo & a & Pa & Ha). rewrite <- Ep, Pa. intros m. cbn [forEach]. exact (looped_forEach _ _ Lo m a 0%Z Ha).
      * intros Hn. unfold done in Tg. rewrite Ex in Tg. destruct (of_ f (fst d)) as [|a0 l0]; [destruct Tg as [Tr _]; rewrite Ex, Ep in Tr; eexists; exact Tr|]. destruct Hn as [Hn|Hn]; [discriminate|].
        assert (Hc : List.concat (g_ys g) = []).
        { rewrite Ey. apply concat_nils. apply Forall_forall. intros l Hl. apply in_map_iff in Hl as (x & <- & Hx). apply filter_In in Hx as [Hx Hk]. symmetry. auto. }
        rewrite Hc, app_nil_r in Tg. rewrite <- Ep. eexists. exact Tg.
    + intros H m. destruct (joinss m h' (map call gs)) eqn:E; [| |reflexivity]; exfalso; assert (X : joinss (m + n) h' (map call gs) = joinss m h' (map call gs)) by (apply joinss_more; [congruence|lia]);
        (destruct (again (m + n) h gs h' G Dn Nd ltac:(lia) ltac:(congruence)) as [_ A3]; rewrite A3 in X by (rewrite Hm; exact H); congruence).
Qed.
End Level.

(** ** The store is the product of its heaps *)
Lemma inside_length {A} (h h' : @heap A) l : List.length h' = List.length h -> Forall (inside h) l -> Forall (inside h') l.
Proof. intros E. apply Forall_impl. intros [a|]; unfold inside; lia. Qed.
Section Lift.
Context {N D : Type} (fs : list (listfield N D)) (merge1 : nat -> N -> N -> store -> out store).
Definition step (n : nat) (f : listfield N D) (t x : N) (h : @heap (elem f)) : out (@heap (elem f)) := if taken f x then join n h (at_ f t) (at_ f x) else Done h.
Hypothesis One : forall n t x s s', merge1 n t x s = Done s' -> forall f, In f fs -> step n f t x (heap_of f s) = Done (heap_of f s').
Hypothesis Ex : forall n t x s, (forall f, In f fs -> exists h, step n f t x (heap_of f s) = Done h) -> exists s', merge1 n t x s = Done s'.
Hypothesis Nil : forall n t x s, merge1 n t x s = NilPtr -> exists f, In f fs /\ step n f t x (heap_of f s) = NilPtr.
Fixpoint run1 (n : nat) (t : N) (xs : list N) (s : store) : out store := match xs with [] => Done s | x :: xs => obind (merge1 n t x s) (run1 n t xs) end.
Fixpoint run (n : nat) (js : list (N * list N)) (s : store) : out store := match js with [] => Done s | (t, xs) :: js => obind (run1 n t xs s) (run n js) end.
Lemma joins_step n f t x xs h : joins n h (at_ f t) (map (at_ f) (filter (taken f) (x :: xs))) = obind (step n f t x h) (fun h => joins n h (at_ f t) (map (at_ f) (filter (taken f) xs))).
Proof. cbn [filter]. unfold step. destruct (taken f x); reflexivity. Qed.
Lemma run1_one n t xs : forall s s', run1 n t xs s = Done s' -> forall f, In f fs -> joins n (heap_of f s) (at_ f t) (map (at_ f) (filter (taken f) xs)) = Done (heap_of f s').
Proof.
  induction xs as [|x xs IH]; intros s s' H f Hf; cbn [run1] in H; [injection H as <-; reflexivity|]. rewrite joins_step. destruct (merge1 n t x s) as [s1| |] eqn:E; try discriminate. cbn [obind] in H.
  rewrite (One _ _ _ _ _ E f Hf). cbn [obind]. apply IH; assumption.
Qed.
Lemma run1_ex n t xs : forall s, (forall f, In f fs -> exists h, joins n (heap_of f s) (at_ f t) (map (at_ f) (filter (taken f) xs)) = Done h) -> exists s', run1 n t xs s = Done s'.
Proof.
  induction xs as [|x xs IH]; intros s H; cbn [run1]; [eauto|]. destruct (Ex n t x s) as (s1 & E).
  - intros f Hf. destruct (H f Hf) as (h & E). rewrite joins_step in E. destruct (step n f t x (heap_of f s)); try discriminate. eauto.
  - rewrite E. cbn [obind]. apply IH. intros f Hf. destruct (H f Hf) as (h & E2). rewrite joins_step, (One _ _ _ _ _ E f Hf) in E2. eauto.
Qed.
Lemma run_one n js : forall s s', run n js s = Done s' -> forall f, In f fs -> joinss n (heap_of f s) (proj f js) = Done (heap_of f s').
Proof.
  induction js as [|[t xs] js IH]; intros s s' H f Hf; cbn [run] in H; [injection H as <-; reflexivity|]. cbn [proj map joinss fst snd]. destruct (run1 n t xs s) as [s1| |] eqn:E; try discriminate. cbn [obind] in H.
  rewrite (run1_one _ _ _ _ _ E f Hf). cbn [obind]. apply IH; assumption.
Qed.
Lemma run_ex n js : forall s, (forall f, In f fs -> exists h, joinss n (heap_of f s) (proj f js) = Done h) -> exists s', run n js s = Done s'.
Proof.
  induction js as [|[t xs] js IH]; intros s H; cbn [run]; [eauto|]. destruct (run1_ex n t xs s) as (s1 & E).
  - intros f Hf. destruct (H f Hf) as (h & E). cbn [proj map joinss fst snd] in E. destruct (joins n (heap_of f s) _ _); try discriminate. eauto.
  - rewrite E. cbn [obind]. apply IH. intros f Hf. destruct (H f Hf) as (h & E2). cbn [proj map joinss fst snd] in E2. rewrite (run1_one _ _ _ _ _ E f Hf) in E2. eauto.
Qed.
(** no nil dereference *)
Definition sound (s : store) (js : list (N * list N)) : Prop := forall f, In f fs -> closed (heap_of f s) /\ Forall (inside (heap_of f s)) (ptrs f js).
Lemma step_sound n f t x (h : @heap (elem f)) : closed h -> inside h (at_ f t) -> inside h (at_ f x) ->
  match step n f t x h with Done h' => closed h' /\ List.length h' = List.length h | NilPtr => False | Diverge => True end.
Proof. intros C T X. unfold step. destruct (taken f x); [apply join_closed; assumption|auto]. Qed.
Lemma run1_sound n t xs : forall s js, sound s ((t, xs) :: js) -> match run1 n t xs s with Done s' => sound s' js | NilPtr => False | Diverge => True end.
Proof.
  induction xs as [|x xs IH]; intros s js H; cbn [run1].
  - intros f Hf. destruct (H f Hf) as [C P]. split; [exact C|]. unfold ptrs in P. cbn [flat_map fst snd map] in P. inversion P; assumption.
  - assert (St : forall f, In f fs -> match step n f t x (heap_of f s) with Done h' => closed h' /\ List.length h' = List.length (heap_of f s) | NilPtr => False | Diverge => True end).
    { intros f Hf. destruct (H f Hf) as [C P]. unfold ptrs in P. cbn [flat_map fst snd map app] in P. inversion P as [|? ? Pt P']; subst. inversion P' as [|? ? Px P'']; subst. apply step_sound; assumption. }
    destruct (merge1 n t x s) as [s1| |] eqn:E; cbn [obind]; [|destruct (Nil _ _ _ _ E) as (f & Hf & X); specialize (St f Hf); rewrite X in St; exact St|exact I].
    apply IH. intros f Hf. specialize (St f Hf). rewrite (One _ _ _ _ _ E f Hf) in St. destruct St as [C L]. split; [exact C|]. eapply inside_length; [exact L|].
    destruct (H f Hf) as [_ P]. unfold ptrs in *. cbn [flat_map fst snd map app] in *. inversion P as [|? ? Pt P']; subst. inversion P' as [|? ? Px P'']; subst. constructor; assumption.
Qed.
Lemma run_sound n js : forall s, sound s js -> run n js s <> NilPtr.
Proof.
  induction js as [|[t xs] js IH]; intros s H; cbn [run]; [discriminate|]. pose proof (run1_sound n t xs s js H) as S. destruct (run1 n t xs s) as [s1| |]; cbn [obind]; [apply IH; exact S|destruct S|discriminate].
Qed.
Lemma run_keeps n js : forall s s', sound s js -> run n js s = Done s' -> sound s' js.
Proof.
  intros s s' H E f Hf. pose proof (run_one _ _ _ _ E f Hf) as J. destruct (H f Hf) as [C P].
  assert (G : forall js (h : @heap (elem f)), closed h -> Forall (inside h) (ptrs f js) -> match joinss n h (proj f js) with Done h' => closed h' /\ List.length h' = List.length h | _ => True end).
  { clear. induction js as [|[t xs] js IH]; intros h C P; cbn [proj map joinss fst snd]; [auto|]. unfold ptrs in P. cbn [flat_map fst snd] in P. change (at_ f t :: map (at_ f) xs) with ([at_ f t] ++ map (at_ f) xs) in P. rewrite !Forall_app in P. destruct P as [[Pt Px] P].
    inversion Pt as [|? ? Pt' _]; subst.
    assert (G1 : match joins n h (at_ f t) (map (at_ f) (filter (taken f) xs)) with Done h' => closed h' /\ List.length h' = List.length h | _ => True end).
    { clear P IH Pt. revert h C Px Pt'. induction xs as [|x xs IH]; intros h C Px Pt; [cbn; auto|]. rewrite joins_step. inversion Px as [|? ? Pa Pb]; subst. pose proof (step_sound n f t x h C Pt Pa) as S.
      destruct (step n f t x h) as [h1| |]; cbn [obind]; auto. destruct S as [C1 L1]. specialize (IH h1 C1 (inside_length h h1 _ L1 Pb)). assert (Pt1 : inside h1 (at_ f t)) by (unfold inside in *; destruct (at_ f t); [lia|exact I]).
      specialize (IH Pt1). destruct (joins n h1 _ _); auto. destruct IH as [C2 L2]. split; [exact C2|congruence]. }
    destruct (joins n h _ _) as [h1| |]; cbn [obind]; auto. destruct G1 as [C1 L1]. specialize (IH h1 C1 (inside_length h h1 _ L1 P)). fold (proj f js). destruct (joinss n h1 (proj f js)); auto. destruct IH as [C2 L2]. split; [exact C2|congruence]. }
  specialize (G js (heap_of f s) C P). rewrite J in G. destruct G as [C' L']. split; [exact C'|]. eapply inside_length; [exact L'|exact P].
Qed.

(** the outcome depends on the heaps only *)
Lemma run_same m js s s2 r : (forall f, In f fs -> heap_of f s2 = heap_of f s) -> run m js s = Done r -> exists r2, run m js s2 = Done r2 /\ forall f, In f fs -> heap_of f r2 = heap_of f r.
Proof.
  intros E H. pose proof (run_one _ _ _ _ H) as H1. destruct (run_ex m js s2) as (r2 & H2); [intros f Hf; exists (heap_of f r); rewrite (E f Hf); exact (H1 f Hf)|].
  exists r2. split; [exact H2|]. intros f Hf. pose proof (run_one _ _ _ _ H2 f Hf) as H3. rewrite (E f Hf), (H1 f Hf) in H3. injection H3 as ->. reflexivity.
Qed.
Lemma run_same_diverge m js s s2 : (forall f, In f fs -> heap_of f s2 = heap_of f s) -> sound s js -> run m js s = Diverge -> run m js s2 = Diverge.
Proof.
  intros E So H. assert (So2 : sound s2 js) by (intros f Hf; rewrite (E f Hf); exact (So f Hf)). destruct (run m js s2) as [r| |] eqn:E2; [|exfalso; exact (run_sound m js s2 So2 E2)|reflexivity].
  destruct (run_same m js s2 s r (fun f Hf => eq_sym (E f Hf)) E2) as (r2 & X & _). congruence.
Qed.
Lemma run_fuel m n js s r r2 : run m js s = Done r -> run n js s = Done r2 -> forall f, In f fs -> heap_of f r = heap_of f r2.
Proof.
  intros H H2 f Hf. pose proof (run_one _ _ _ _ H f Hf) as J. pose proof (run_one _ _ _ _ H2 f Hf) as J2.
  assert (X : joinss (m + n) (heap_of f s) (proj f js) = joinss m (heap_of f s) (proj f js)) by (apply joinss_more; [congruence|lia]).
  assert (Y : joinss (m + n) (heap_of f s) (proj f js) = joinss n (heap_of f s) (proj f js)) by (apply joinss_more; [congruence|lia]). congruence.
Qed.

(** ** Both rounds *)
Context (same : N -> D -> Prop) (Same : forall t d f, In f fs -> same t d -> taken f t = joins_it f d).
Definition enough (s : store) (n : nat) : Prop := forall f, In f fs -> List.length (heap_of f s) < n.
Definition returns_again (ds : list (D * list D)) : Prop := forall f, In f fs -> Forall (harmless_in f) ds.
Lemma returns_again_dec ds : returns_again ds \/ exists f, In f fs /\ ~ Forall (harmless_in f) ds.
Proof.
  unfold returns_again. clear. induction fs as [|f l IH]; [left; intros f []|].
  assert (Dc : {Forall (harmless_in f) ds} + {~ Forall (harmless_in f) ds}).
  { apply Forall_dec. intros d. unfold harmless_in. destruct (of_ f (fst d)); [left; auto|]. destruct (Forall_dec (eq []) nil_dec (removelast (map (of_ f) (filter (joins_it f) (snd d))))) as [H|H]; [left; auto|right; intros [E|E]; [discriminate|auto]]. }
  destruct Dc as [Dc|Dc]; [|right; exists f; split; [left; reflexivity|exact Dc]]. destruct IH as [IH|(f' & H1 & H2)]; [left|right; exists f'; split; [right; exact H1|exact H2]].
  intros f' [<-|Hf']; auto.
Qed.
Lemma laid_parts s js ds f : laid_out fs same s js ds -> In f fs -> Forall2 (holds_job f (heap_of f s)) js ds /\ agrees f js ds /\ ForallOrdPairs (apart (heap_of f s)) (ptrs f js).
Proof.
  intros L Hf. split; [exact (lo_reads _ _ _ _ _ L f Hf)|]. split; [|exact (lo_apart _ _ _ _ _ L f Hf)]. pose proof (lo_same _ _ _ _ _ L) as S. clear -S Same Hf.
  induction S as [|j d js ds [_ H] S IH]; constructor; [|exact IH]. induction H; constructor; auto.
Qed.
Lemma laid_sound s js ds : laid_out fs same s js ds -> sound s js.
Proof.
  intros L f Hf. split; [intros a c E; pose proof (lo_closed _ _ _ _ _ L f Hf a c) as C; unfold inside; destruct (nxt c) as [b|]; [exact (C b E eq_refl)|exact I]|].
  pose proof (lo_reads _ _ _ _ _ L f Hf) as R. clear -R.
  assert (B : forall (h : @heap (elem f)) p xs, reads h p xs -> inside h p).
  { intros h p xs (ads & Rp). destruct p as [a|]; [|exact I]. pose proof (rep_bound _ _ _ _ Rp) as Bd. rewrite Forall_forall in Bd. apply Bd. exact (chain_head_in _ _ _ _ (rep_chain _ _ _ _ Rp)). }
  induction R as [|j d js ds [H1 H2] R IH]; [constructor|]. unfold ptrs in *. cbn [flat_map]. apply Forall_app. split; [|exact IH]. constructor; [exact (B _ _ _ H1)|].
  clear -H2 B. induction H2 as [|x y xs ys Rx H IH]; [constructor|]. cbn [map]. constructor; [exact (B _ _ _ Rx)|exact IH].
Qed.
Lemma both n s js ds : laid_out fs same s js ds -> enough s n -> exists s', run n js s = Done s' /\ sound s' js /\
   (forall f, In f fs -> List.length (heap_of f s') = List.length (heap_of f s)) /\
   (forall f k j d, In f fs -> nth_error js k = Some j -> nth_error ds k = Some d ->
      reads (heap_of f s') (at_ f (fst j)) (plus (of_ f (fst d)) (map (of_ f) (filter (joins_it f) (snd d)))) /\
      forall i x y, nth_error (snd j) i = Some x -> nth_error (snd d) i = Some y -> reads (heap_of f s') (at_ f x) (extension_after f (of_ f (fst d)) y (skipn (S i) (snd d)))) /\
   (forall f p xs, In f fs -> reads (heap_of f s) p xs -> (forall q, In q (joined_ptrs f js) -> apart (heap_of f s) p q) -> reads (heap_of f s') p xs) /\
   (returns_again ds -> exists s'', run n js s' = Done s'' /\
      forall f k j d, In f fs -> nth_error js k = Some j -> nth_error ds k = Some d ->
        (of_ f (fst d) <> [] -> (exists x, In x (snd d) /\ joins_it f x = true /\ of_ f x <> []) -> endless (heap_of f s'') (at_ f (fst j))) /\
        (of_ f (fst d) = [] \/ (forall x, In x (snd d) -> joins_it f x = true -> of_ f x = []) -> reads (heap_of f s'') (at_ f (fst j)) (of_ f (fst d)))) /\ 
   (~ returns_again ds -> forall m, run m js s' = Diverge).
Proof.
  intros L F. assert (Lv : forall f, In f fs -> exists h', joinss n (heap_of f s) (proj f js) = Done h' /\ leveled f (heap_of f s) h' js ds n) by (intros f Hf; destruct (laid_parts s js ds f L Hf) as (P1 & P2 & P3); exact (level f (heap_of f s) js ds n P1 P2 P3 (F f Hf))).
  destruct (run_ex n js s) as (s' & E); [intros f Hf; destruct (Lv f Hf) as (h' & J & _); eauto|]. exists s'. split; [exact E|].
  assert (Sn : sound s' js) by (eapply run_keeps; [eapply laid_sound; exact L|exact E]). split; [exact Sn|].
  pose proof (run_one n js s s' E) as One'.
  assert (Lv' : forall f, In f fs -> leveled f (heap_of f s) (heap_of f s') js ds n) by (intros f Hf; destruct (Lv f Hf) as (h' & J & Rest); rewrite (One' f Hf) in J; injection J as <-; exact Rest).
  split; [intros f Hf; apply (Lv' f Hf)|]. split; [intros f k j d Hf Hj Hd; exact (proj1 (proj2 (Lv' f Hf)) k j d Hj Hd)|].
  split; [intros f p xs Hf; exact (proj1 (proj2 (proj2 (Lv' f Hf))) p xs)|]. split.
  - intros H. destruct (run_ex n js s') as (s'' & E2); [intros f Hf; destruct (proj1 (proj2 (proj2 (proj2 (Lv' f Hf)))) (H f Hf)) as (h'' & J2 & _); eauto|].
    exists s''. split; [exact E2|]. intros f k j d Hf. destruct (proj1 (proj2 (proj2 (proj2 (Lv' f Hf)))) (H f Hf)) as (h'' & J2 & En). rewrite (run_one n js s' s'' E2 f Hf) in J2. injection J2 as <-. apply En.
  - intros H m. destruct (returns_again_dec ds) as [X|(f & Hf & X)]; [contradiction|]. pose proof (proj2 (proj2 (proj2 (proj2 (Lv' f Hf)))) X m) as Dv.
    destruct (run m js s') as [s2| |] eqn:E2; [|exfalso; exact (run_sound m js s' Sn E2)|reflexivity]. rewrite (run_one m js s' s2 E2 f Hf) in Dv. discriminate.
Qed.
End Lift.

Ltac each_field Hf := cbv [type_fields schema_fields In] in Hf; repeat (destruct Hf as [<-|Hf]); [..|destruct Hf].
Ltac open_joins H := repeat (match type of H with context [join ?n ?h ?p ?q] => destruct (join n h p q) eqn:?; cbn [obind h_dirs h_impl h_fields h_members h_values h_inputs h_sdirs h_ops] in H end).
Lemma type_one n t x s s' : merge_one n t x s = Done s' -> forall f, In f type_fields -> step n f t x (heap_of f s) = Done (heap_of f s').
Proof.
  intros H f Hf. unfold merge_one, on_dirs, on_impl, on_fields, on_members, on_values, on_inputs in H. unfold step.
  destruct (n_kind x) eqn:K; open_joins H; try discriminate; injection H as <-; each_field Hf; cbn [taken field heap_of at_]; rewrite K; cbn; congruence.
Qed.
Lemma type_ex n t x s : (forall f, In f type_fields -> exists h, step n f t x (heap_of f s) = Done h) -> exists s', merge_one n t x s = Done s'.
Proof.
  intros H. assert (G : forall k f, nth_error type_fields k = Some f -> exists h, step n f t x (heap_of f s) = Done h) by (intros k f E; apply H; eapply nth_error_In; exact E).
  pose proof (G 0 _ eq_refl) as (h0 & H0). pose proof (G 1 _ eq_refl) as (h1 & H1). pose proof (G 2 _ eq_refl) as (h2 & H2). pose proof (G 3 _ eq_refl) as (h3 & H3). pose proof (G 4 _ eq_refl) as (h4 & H4). pose proof (G 5 _ eq_refl) as (h5 & H5).
  clear G H. unfold step in *. cbn [elem taken field heap_of at_] in *. unfold merge_one, on_dirs, on_impl, on_fields, on_members, on_values, on_inputs.
  destruct (n_kind x) eqn:K; cbn [existsb tkind_eqb orb] in *; cbv beta; rewrite H0; cbn [obind h_dirs h_impl h_fields h_members h_values h_inputs h_sdirs h_ops]; rewrite ?H1, ?H2, ?H3, ?H4, ?H5; cbn [obind h_dirs h_impl h_fields h_members h_values h_inputs h_sdirs h_ops]; rewrite ?H1, ?H2, ?H3, ?H4, ?H5; cbn [obind]; eauto.
Qed.
Lemma type_nil n t x s : merge_one n t x s = NilPtr -> exists f, In f type_fields /\ step n f t x (heap_of f s) = NilPtr.
Proof.
  intros H. assert (G : forall k f, nth_error type_fields k = Some f -> (if taken f x then join n (heap_of f s) (at_ f t) (at_ f x) else Done (heap_of f s)) = NilPtr -> exists f, In f type_fields /\ step n f t x (heap_of f s) = NilPtr) by (intros k f E X; exists f; split; [eapply nth_error_In; exact E|exact X]).
  unfold merge_one, on_dirs, on_impl, on_fields, on_members, on_values, on_inputs in H.
  pose proof (G 0 _ eq_refl) as G0. pose proof (G 1 _ eq_refl) as G1. pose proof (G 2 _ eq_refl) as G2. pose proof (G 3 _ eq_refl) as G3. pose proof (G 4 _ eq_refl) as G4. pose proof (G 5 _ eq_refl) as G5. clear G.
  cbn [elem taken field heap_of at_] in *.
  destruct (n_kind x) eqn:K; cbn [existsb tkind_eqb orb] in *; destruct (join n (h_dirs s) (n_dirs t) (n_dirs x)) eqn:J0; cbn [obind h_dirs h_impl h_fields h_members h_values h_inputs h_sdirs h_ops] in H; try discriminate; auto.
  - destruct (join n (h_fields s) (n_fields t) (n_fields x)) eqn:J1; cbn [obind h_dirs h_impl h_fields h_members h_values h_inputs h_sdirs h_ops] in H; try discriminate; auto.
    destruct (join n (h_impl s) (n_impl t) (n_impl x)) eqn:J2; cbn [obind] in H; try discriminate; auto.
  - destruct (join n (h_fields s) (n_fields t) (n_fields x)) eqn:J1; cbn [obind] in H; try discriminate; auto.
  - destruct (join n (h_members s) (n_members t) (n_members x)) eqn:J1; cbn [obind] in H; try discriminate; auto.
  - destruct (join n (h_values s) (n_values t) (n_values x)) eqn:J1; cbn [obind] in H; try discriminate; auto.
  - destruct (join n (h_inputs s) (n_inputs t) (n_inputs x)) eqn:J1; cbn [obind] in H; try discriminate; auto.
Qed.
Definition merge_sone (n : nat) (d x : snode) (s : store) : out store := obind (on_sdirs (fun h => join n h (n_sdirs d) (n_sdirs x)) s) (fun s => on_ops (fun h => join n h (n_sops d) (n_sops x)) s).
Lemma schema_one n t x s s' : merge_sone n t x s = Done s' -> forall f, In f schema_fields -> step n f t x (heap_of f s) = Done (heap_of f s').
Proof. intros H f Hf. unfold merge_sone, on_sdirs, on_ops in H. unfold step. open_joins H; try discriminate; injection H as <-; each_field Hf; cbn; congruence. Qed.
Lemma schema_ex n t x s : (forall f, In f schema_fields -> exists h, step n f t x (heap_of f s) = Done h) -> exists s', merge_sone n t x s = Done s'.
Proof.
  intros H. destruct (H _ (or_introl eq_refl)) as (h0 & H0). destruct (H _ (or_intror (or_introl eq_refl))) as (h1 & H1). unfold step in *. cbn [elem taken heap_of at_] in *. unfold merge_sone, on_sdirs, on_ops.
  rewrite H0. cbn [obind h_ops]. rewrite H1. cbn [obind]. eauto.
Qed.
Lemma schema_nil n t x s : merge_sone n t x s = NilPtr -> exists f, In f schema_fields /\ step n f t x (heap_of f s) = NilPtr.
Proof.
  intros H. unfold merge_sone, on_sdirs, on_ops in H. destruct (join n (h_sdirs s) (n_sdirs t) (n_sdirs x)) eqn:J0; cbn [obind h_ops] in H; try discriminate.
  - destruct (join n (h_ops s) (n_sops t) (n_sops x)) eqn:J1; cbn [obind] in H; try discriminate. eexists. split; [right; left; reflexivity|]. unfold step. cbn. exact J1.
  - eexists. split; [left; reflexivity|]. unfold step. cbn. exact J0.
Qed.
Lemma nodes_run n js : forall s, merge_nodes n js s = run merge_one n js s.
Proof.
  assert (G : forall t xs s, merge_node n t xs s = run1 merge_one n t xs s).
  { intros t xs. induction xs as [|x xs IH]; intros s; cbn; [reflexivity|]. destruct (merge_one n t x s); cbn; auto. }
  induction js as [|[t xs] js IH]; intros s; cbn; [reflexivity|]. rewrite G. destruct (run1 merge_one n t xs s); cbn; auto.
Qed.
Definition jobs {N} (d : option (N * list N)) : list (N * list N) := match d with None => [] | Some j => [j] end.
Lemma schemas_run n d s : merge_schemas n d s = run merge_sone n (jobs d) s.
Proof.
  assert (G : forall t xs s, merge_snode n t xs s = run1 merge_sone n t xs s).
  { intros t xs. induction xs as [|x xs IH]; intros s'; cbn; [reflexivity|]. unfold merge_sone. destruct (on_sdirs _ s'); cbn; [|reflexivity|reflexivity]. destruct (on_ops _ _); cbn; auto. }
  destruct d as [[t xs]|]; cbn; [|reflexivity]. rewrite G. destruct (run1 merge_sone n t xs s); reflexivity.
Qed.
(** the two merges work on different heaps *)
Lemma one_keeps n t x s s' : merge_one n t x s = Done s' -> h_sdirs s' = h_sdirs s /\ h_ops s' = h_ops s.
Proof. unfold merge_one, on_dirs, on_impl, on_fields, on_members, on_values, on_inputs. intros H. destruct (n_kind x); open_joins H; try discriminate; injection H as <-; auto. Qed.
Lemma nodes_keep n js : forall s s', merge_nodes n js s = Done s' -> h_sdirs s' = h_sdirs s /\ h_ops s' = h_ops s.
Proof.
  assert (G : forall t xs s s', merge_node n t xs s = Done s' -> h_sdirs s' = h_sdirs s /\ h_ops s' = h_ops s).
  { intros t xs. induction xs as [|x xs IH]; intros s s' H; cbn in H; [injection H as <-; auto|]. destruct (merge_one n t x s) as [s1| |] eqn:E; try discriminate. destruct (one_keeps _ _ _ _ _ E) as [<- <-]. apply IH. exact H. }
  induction js as [|[t xs] js IH]; intros s s' H; cbn in H; [injection H as <-; auto|]. destruct (merge_node n t xs s) as [s1| |] eqn:E; try discriminate. destruct (G _ _ _ _ E) as [<- <-]. apply IH. exact H.
Qed.
Definition same_type_heaps (s s' : store) : Prop := h_dirs s' = h_dirs s /\ h_impl s' = h_impl s /\ h_fields s' = h_fields s /\ h_members s' = h_members s /\ h_values s' = h_values s /\ h_inputs s' = h_inputs s.
Lemma schemas_keep n d s s' : merge_schemas n d s = Done s' -> same_type_heaps s s'.
Proof.
  assert (G : forall t xs s s', merge_snode n t xs s = Done s' -> same_type_heaps s s').
  { intros t xs. induction xs as [|x xs IH]; intros s0 s1 H; cbn in H; [injection H as <-; repeat split; reflexivity|]. unfold on_sdirs, on_ops in H. open_joins H; try discriminate.
    destruct (IH _ _ H) as (A & B & C & E & F & G). repeat split; assumption. }
  destruct d as [[t xs]|]; cbn; [apply G|]. intros H. injection H as <-. repeat split; reflexivity.
Qed.
Lemma same_heaps s s' : same_type_heaps s s' -> forall f, In f type_fields -> heap_of f s' = heap_of f s.
Proof. intros (A & B & C & E & F & G) f Hf. each_field Hf; cbn; assumption. Qed.
Lemma laid_moved s s' js ds : same_type_heaps s s' -> types_laid_out s js ds -> types_laid_out s' js ds.
Proof.
  intros S [L1 L2 L3 L4]. pose proof (same_heaps _ _ S) as E. constructor; [exact L1| | |]; intros f Hf.
  - rewrite (E f Hf). apply L2. exact Hf.
  - rewrite (E f Hf). apply L3. exact Hf.
  - rewrite (E f Hf). apply L4. exact Hf.
Qed.

(** ** Theorems *)
(** The schema definition (if there is one) and the extended types, each with its extensions, as the parser left them in memory. *)
Definition document_laid_out (s : store) (d : option (snode * list snode)) (js : list (tnode * list tnode)) (dd : option (schemadef * list schemadef)) (ds : list (tydef * list tydef)) : Prop :=
  schemas_laid_out s (jobs d) (jobs dd) /\ types_laid_out s js ds.
(** [n] exceeds the number of cells: no loop over a list that ends can run out of fuel. *)
Definition room (s : store) (n : nat) : Prop := (forall f, In f type_fields -> List.length (heap_of f s) < n) /\ (forall f, In f schema_fields -> List.length (heap_of f s) < n).

Lemma taken_same t d f : In f type_fields -> same_kind t d -> taken f t = joins_it f d.
Proof. intros Hf E. unfold same_kind in E. each_field Hf; cbn; rewrite E; reflexivity. Qed.
Lemma staken_same (t : snode) (d : schemadef) f : In f schema_fields -> True -> taken f t = joins_it f d.
Proof. intros Hf _. each_field Hf; reflexivity. Qed.
Definition types_both := both type_fields merge_one type_one type_ex type_nil same_kind (fun t d f Hf => taken_same t d f Hf).
Definition schemas_both := both schema_fields merge_sone schema_one schema_ex schema_nil (fun _ _ => True) (fun t d f Hf => staken_same t d f Hf).
Lemma filter_all {T} (p : T -> bool) l : (forall x, p x = true) -> filter p l = l.
Proof. intros H. induction l as [|x l IH]; [reflexivity|]. cbn. rewrite H, IH. reflexivity. Qed.
Lemma merged_field f d ys : In f type_fields -> of_ f (merged d ys) = plus (of_ f d) (map (of_ f) (filter (joins_it f) ys)).
Proof.
  intros Hf. each_field Hf; try reflexivity. cbn [of_ field joins_it t_dirs merged]. rewrite filter_all; [reflexivity|]. intros x. destruct (t_kind x); reflexivity.
Qed.

Lemma indexed_fst {A} (l : list A) : forall z, map fst (indexed l z) = l.
Proof. induction l as [|a l IH]; intros z; [reflexivity|]. cbn. f_equal. apply IH. Qed.
(** The first build returns; every extended type then reads as C34 says of the built schema, and so does the schema definition, whose operation types are those the build installs. *)
Theorem C70_first : forall n s d js dd ds, document_laid_out s d js dd ds -> room s n -> exists s' ops, build_in_place n d js s = Done (s', ops) /\
  (forall k t xs td ys, nth_error js k = Some (t, xs) -> nth_error ds k = Some (td, ys) -> shows s' t (merged td ys)) /\
  match d, dd with
  | Some (t, _), Some (sd, ys) => reads (h_sdirs s') (n_sdirs t) (plus (s_dirs sd) (map s_dirs ys)) /\ reads (h_ops s') (n_sops t) (plus (s_ops sd) (map s_ops ys)) /\ ops = plus (s_ops sd) (map s_ops ys)
  | _, _ => ops = []
  end.
Proof.
  intros n s d js dd ds [Ls Lt] [Rt Rs].
  destruct (schemas_both n s (jobs d) (jobs dd) Ls Rs) as (s1 & E1 & _ & Len1 & R1 & _). rewrite <- schemas_run in E1. pose proof (schemas_keep _ _ _ _ E1) as K1. pose proof (same_heaps _ _ K1) as Sh.
  destruct (types_both n s1 js ds (laid_moved _ _ _ _ K1 Lt)) as (s2 & E2 & _ & _ & R2 & _); [intros f Hf; rewrite (Sh f Hf); exact (Rt f Hf)|]. rewrite <- nodes_run in E2. destruct (nodes_keep _ _ _ _ E2) as [K2 K3].
  assert (Kinds : forall k t xs td ys, nth_error js k = Some (t, xs) -> nth_error ds k = Some (td, ys) -> shows s2 t (merged td ys)).
  { intros k t xs td ys Hj Hd. split; [exact (proj1 (Forall2_nth _ _ _ (lo_same _ _ _ _ _ Lt) k _ _ Hj Hd))|]. intros f Hf. rewrite (merged_field f td ys Hf). exact (proj1 (R2 f k _ _ Hf Hj Hd)). }
  unfold build_in_place. rewrite E1. cbn [obind]. rewrite E2. cbn [obind].
  destruct d as [[t xs]|], dd as [[sd ys]|]; try (pose proof (lo_same _ _ _ _ _ Ls) as X; inversion X; fail).
  - destruct (R1 _ 0 _ _ (or_introl eq_refl) eq_refl eq_refl) as [Rd _]. destruct (R1 _ 0 _ _ (or_intror (or_introl eq_refl)) eq_refl eq_refl) as [Ro _]. cbn [heap_of at_ of_ joins_it fst snd] in Rd, Ro. rewrite !filter_all in Rd, Ro by reflexivity.
    assert (Lo : List.length (h_ops s2) < n) by (rewrite K3; rewrite (Len1 _ (or_intror (or_introl eq_refl)) : List.length (h_ops s1) = List.length (h_ops s)); exact (Rs _ (or_intror (or_introl eq_refl)))).
    rewrite K3. destruct Ro as (ads & Ro). rewrite K3 in Lo. pose proof (forEach_ok _ _ _ _ n Ro (Nat.lt_le_incl _ _ Lo) : forEach n (h_ops s1) (n_sops t) = _) as Fe. cbn [fst]. rewrite Fe. cbn [obind]. eexists s2, _.
    split; [reflexivity|]. split; [exact Kinds|]. split; [rewrite K2; exact Rd|]. split; [rewrite K3; exists ads; exact Ro|]. exact (indexed_fst (plus (s_ops sd) (map s_ops ys)) 0%Z).
  - exists s2, []. auto.
Qed.

Lemma build_parts n s d js s' ops : build_in_place n d js s = Done (s', ops) -> exists s1, merge_schemas n d s = Done s1 /\ merge_nodes n js s1 = Done s' /\ same_type_heaps s s1 /\ h_sdirs s' = h_sdirs s1 /\ h_ops s' = h_ops s1.
Proof.
  unfold build_in_place. intros H. destruct (merge_schemas n d s) as [s1| |] eqn:E1; try discriminate. cbn [obind] in H. destruct (merge_nodes n js s1) as [s2| |] eqn:E2; try discriminate. cbn [obind] in H.
  destruct (match d with None => _ | Some _ => _ end); try discriminate. cbn [obind] in H. injection H as <- _. destruct (nodes_keep _ _ _ _ E2) as [K2 K3]. exists s1. split; [reflexivity|]. split; [exact E2|]. split; [exact (schemas_keep _ _ _ _ E1)|auto].
Qed.
Lemma schema_heaps s s' : h_sdirs s' = h_sdirs s -> h_ops s' = h_ops s -> forall f, In f schema_fields -> heap_of f s' = heap_of f s.
Proof. intros A B f Hf. each_field Hf; cbn; assumption. Qed.

(** The document has changed: the list of the [i]-th extension goes on with those of the later extensions of the same type ([extension_after]) — unless its kind
    contributes nothing to this field, the definition's own list is empty, or it is itself empty. *)
Theorem C70_document : forall n s d js dd ds s' ops, document_laid_out s d js dd ds -> room s n -> build_in_place n d js s = Done (s', ops) ->
  (forall f k i t xs td ys x y, In f type_fields -> nth_error js k = Some (t, xs) -> nth_error ds k = Some (td, ys) -> nth_error xs i = Some x -> nth_error ys i = Some y ->
     reads (heap_of f s') (at_ f x) (extension_after f (of_ f td) y (skipn (S i) ys))) /\
  (forall f i t xs sd ys x y, In f schema_fields -> d = Some (t, xs) -> dd = Some (sd, ys) -> nth_error xs i = Some x -> nth_error ys i = Some y ->
     reads (heap_of f s') (at_ f x) (extension_after f (of_ f sd) y (skipn (S i) ys))).
Proof.
  intros n s d js dd ds s' ops [Ls Lt] [Rt Rs] H. destruct (build_parts _ _ _ _ _ _ H) as (s1 & E1 & E2 & K1 & K2 & K3). pose proof (same_heaps _ _ K1) as Sh. rewrite nodes_run in E2. rewrite schemas_run in E1.
  destruct (schemas_both n s (jobs d) (jobs dd) Ls Rs) as (s1' & E1' & _ & _ & R1 & _). rewrite E1 in E1'. injection E1' as <-.
  destruct (types_both n s1 js ds (laid_moved _ _ _ _ K1 Lt)) as (s2 & E2' & _ & _ & R2 & _); [intros f Hf; rewrite (Sh f Hf); exact (Rt f Hf)|]. rewrite E2 in E2'. injection E2' as <-. split.
  - intros f k i t xs td ys x y Hf Hj Hd Hx Hy. exact (proj2 (R2 f k _ _ Hf Hj Hd) i x y Hx Hy).
  - intros f i t xs sd ys x y Hf -> -> Hx Hy. rewrite (schema_heaps s1 s' K2 K3 f Hf). exact (proj2 (R1 f 0 _ _ Hf eq_refl eq_refl) i x y Hx Hy).
Qed.
(** Every list that shares no cell with those is as before. *)
Theorem C70_others : forall n s d js dd ds s' ops, document_laid_out s d js dd ds -> room s n -> build_in_place n d js s = Done (s', ops) ->
  (forall f p l, In f type_fields -> reads (heap_of f s) p l -> (forall t xs, In (t, xs) js -> apart (heap_of f s) p (at_ f t) /\ forall x, In x xs -> apart (heap_of f s) p (at_ f x)) -> reads (heap_of f s') p l) /\
  (forall f p l, In f schema_fields -> reads (heap_of f s) p l -> (forall t xs, d = Some (t, xs) -> apart (heap_of f s) p (at_ f t) /\ forall x, In x xs -> apart (heap_of f s) p (at_ f x)) -> reads (heap_of f s') p l).
Proof.
  intros n s d js dd ds s' ops [Ls Lt] [Rt Rs] H. destruct (build_parts _ _ _ _ _ _ H) as (s1 & E1 & E2 & K1 & K2 & K3). pose proof (same_heaps _ _ K1) as Sh. rewrite nodes_run in E2. rewrite schemas_run in E1.
  destruct (schemas_both n s (jobs d) (jobs dd) Ls Rs) as (s1' & E1' & _ & _ & _ & R1 & _). rewrite E1 in E1'. injection E1' as <-.
  destruct (types_both n s1 js ds (laid_moved _ _ _ _ K1 Lt)) as (s2 & E2' & _ & _ & _ & R2 & _); [intros f Hf; rewrite (Sh f Hf); exact (Rt f Hf)|]. rewrite E2 in E2'. injection E2' as <-. split.
  - intros f p l Hf R A. apply (R2 f p l Hf); [rewrite (Sh f Hf); exact R|]. intros q Hq. rewrite (Sh f Hf). apply in_flat_map in Hq as ([t xs] & Hj & Hq). destruct (A t xs Hj) as [A1 A2]. cbn [fst snd] in Hq.
    destruct Hq as [<-|Hq]; [exact A1|]. apply in_map_iff in Hq as (x & <- & Hx). apply filter_In in Hx as [Hx _]. exact (A2 x Hx).
  - intros f p l Hf R A. rewrite (schema_heaps s1 s' K2 K3 f Hf). apply (R1 f p l Hf R). intros q Hq. apply in_flat_map in Hq as ([t xs] & Hj & Hq). destruct d as [[t' xs']|]; [|destruct Hj]. destruct Hj as [E|[]]. injection E as -> ->.
    destruct (A t xs eq_refl) as [A1 A2]. cbn [fst snd] in Hq. destruct Hq as [<-|Hq]; [exact A1|]. apply in_map_iff in Hq as (x & <- & Hx). apply filter_In in Hx as [Hx _]. exact (A2 x Hx).
Qed.

(** A second build of the same document can only return if, for every list, the definition's own is empty or none of the extensions but the last contributes anything;
    and the operation types of the schema definition must not be extended at all. *)
Definition can_build_again (dd : option (schemadef * list schemadef)) (ds : list (tydef * list tydef)) : Prop :=
  (forall f td ys, In f type_fields -> In (td, ys) ds -> of_ f td = [] \/ Forall (eq []) (removelast (map (of_ f) (filter (joins_it f) ys)))) /\
  match dd with
  | None => True
  | Some (sd, ys) => (s_dirs sd = [] \/ Forall (eq []) (removelast (map s_dirs ys))) /\ (s_ops sd = [] \/ Forall (fun y => s_ops y = []) ys)
  end.
(** An extended list, after the second build: *)
Definition extended {N D} (f : listfield N D) (td : D) (ys : list D) : Prop := of_ f td <> [] /\ exists y, In y ys /\ joins_it f y = true /\ of_ f y <> [].
Lemma Forall_removelast {T} (P : T -> Prop) l : Forall P l -> Forall P (removelast l).
Proof. intros H. rewrite Forall_forall in *. intros x Hx. apply H. destruct l as [|a l]; [exact Hx|]. rewrite (app_removelast_last a (l := a :: l)) by discriminate. apply in_app_iff. auto. Qed.
Lemma can_types dd ds : can_build_again dd ds -> returns_again type_fields ds.
Proof. intros [H _] f Hf. apply Forall_forall. intros [td ys] Hd. exact (H f td ys Hf Hd). Qed.
Lemma can_schema dd ds : can_build_again dd ds -> returns_again schema_fields (jobs dd).
Proof.
  intros [_ H] f Hf. destruct dd as [[sd ys]|]; [|constructor]. destruct H as [H1 H2]. constructor; [|constructor]. each_field Hf; unfold harmless_in; cbn [fst snd of_ joins_it]; rewrite filter_all by reflexivity; [exact H1|].
  destruct H2 as [H2|H2]; [left; exact H2|right]. apply Forall_removelast. apply Forall_forall. intros l Hl. apply in_map_iff in Hl as (y & <- & Hy). rewrite Forall_forall in H2. symmetry. apply H2. exact Hy.
Qed.
Lemma join_loop_length {A} : forall m (h : @heap A) p z l h' l', join_loop m h p z l = Done (h', l') -> List.length h' = List.length h.
Proof.
  induction m as [|m IH]; intros h p z l h' l' E; [discriminate|]. cbn [join_loop] in E. destruct p as [b|]; [|injection E as <- _; reflexivity].
  destruct (deref h (Some b)) as [[b' c]| |]; try discriminate. cbn [obind] in E. apply IH in E. rewrite upd_length in E. exact E.
Qed.
Lemma join_length {A} m (h : @heap A) p q h' : join m h p q = Done h' -> List.length h' = List.length h.
Proof.
  intros H. unfold join in H. destruct p as [a|]; [|injection H as <-; reflexivity]. destruct (len h (Some a)); try discriminate. destruct (len h q); try discriminate. cbn [obind] in H.
  destruct (join_loop m h (Some a) _ a) as [[h1 l1]| |] eqn:E; try discriminate. cbn [obind] in H. destruct (deref h1 (Some l1)) as [[? ?]| |]; try discriminate. injection H as <-. rewrite upd_length.
  exact (join_loop_length _ _ _ _ _ _ _ E).
Qed.
(** The second build: where it returns, every extended list has become endless — whoever goes through it (the dumper, the validation, ForEach) never comes back. *)
Theorem C70_again_returns : forall n s d js dd ds s' ops, document_laid_out s d js dd ds -> room s n -> build_in_place n d js s = Done (s', ops) -> can_build_again dd ds ->
  exists s'' ops', build_in_place n d js s' = Done (s'', ops') /\
    (forall f k t xs td ys, In f type_fields -> nth_error js k = Some (t, xs) -> nth_error ds k = Some (td, ys) ->
       (extended f td ys -> endless (heap_of f s'') (at_ f t)) /\ (~ extended f td ys -> reads (heap_of f s'') (at_ f t) (of_ f td))) /\
    (forall t xs sd ys, d = Some (t, xs) -> dd = Some (sd, ys) -> (s_dirs sd <> [] -> (exists y, In y ys /\ s_dirs y <> []) -> endless (h_sdirs s'') (n_sdirs t)) /\ ops' = s_ops sd).
Proof.
  intros n s d js dd ds s' ops [Ls Lt] [Rt Rs] H Can. destruct (build_parts _ _ _ _ _ _ H) as (s1 & E1 & E2 & K1 & K2 & K3). pose proof (same_heaps _ _ K1) as Sh. rewrite nodes_run in E2. rewrite schemas_run in E1.
  destruct (schemas_both n s (jobs d) (jobs dd) Ls Rs) as (s1' & E1' & _ & Ln1 & _ & _ & A1 & _). rewrite E1 in E1'. injection E1' as <-.
  destruct (types_both n s1 js ds (laid_moved _ _ _ _ K1 Lt)) as (s2 & E2' & _ & _ & _ & _ & A2 & _); [intros f Hf; rewrite (Sh f Hf); exact (Rt f Hf)|]. rewrite E2 in E2'. injection E2' as <-.
  destruct (A1 (can_schema _ _ Can)) as (sA & HA & PA). destruct (A2 (can_types _ _ Can)) as (sB & HB & PB).
  destruct (run_same schema_fields merge_sone schema_one schema_ex n (jobs d) s1 s' sA (schema_heaps s1 s' K2 K3) HA) as (s3 & E3 & Q3). rewrite <- schemas_run in E3. pose proof (schemas_keep _ _ _ _ E3) as K4.
  destruct (run_same type_fields merge_one type_one type_ex n js s' s3 sB (same_heaps _ _ K4) HB) as (s4 & E4 & Q4). rewrite <- nodes_run in E4. destruct (nodes_keep _ _ _ _ E4) as [K5 K6].
  assert (PB' : forall f k t xs td ys, In f type_fields -> nth_error js k = Some (t, xs) -> nth_error ds k = Some (td, ys) ->
       (extended f td ys -> endless (heap_of f s4) (at_ f t)) /\ (~ extended f td ys -> reads (heap_of f s4) (at_ f t) (of_ f td))).
  { intros f k t xs td ys Hf Hj Hd. rewrite (Q4 f Hf). destruct (PB f k _ _ Hf Hj Hd) as [P1 P2]. cbn [fst snd] in *. split; [intros [X Y]; exact (P1 X Y)|]. intros Nx. apply P2.
    destruct (nil_dec (of_ f td)) as [E|E]; [left; symmetry; exact E|right]. intros x Hx Hk. destruct (nil_dec (of_ f x)) as [E'|E']; [symmetry; exact E'|]. destruct Nx. split; [congruence|]. exists x. repeat split; congruence. }
  unfold build_in_place. rewrite E3. cbn [obind]. rewrite E4. cbn [obind]. destruct d as [[t xs]|], dd as [[sd ys]|]; try (pose proof (lo_same _ _ _ _ _ Ls) as X; inversion X; fail).
  - destruct (PA _ 0 _ _ (or_introl eq_refl) eq_refl eq_refl) as [Pd _]. destruct (PA _ 0 _ _ (or_intror (or_introl eq_refl)) eq_refl eq_refl) as [_ Po]. cbn [heap_of at_ of_ joins_it fst snd] in Pd, Po.
    pose proof (Q3 _ (or_introl eq_refl) : h_sdirs s3 = h_sdirs sA) as Qd. pose proof (Q3 _ (or_intror (or_introl eq_refl)) : h_ops s3 = h_ops sA) as Qo.
    destruct Po as (ads & Po). { destruct Can as [_ [_ [X|X]]]; [left; exact X|right]. intros x Hx _. rewrite Forall_forall in X. apply X. exact Hx. }
    assert (Ro : rep (h_ops s4) (n_sops t) ads (s_ops sd)) by (rewrite K6, Qo; exact Po).
    assert (Lo : List.length (h_ops s4) <= n).
    { assert (X : forall m js (s s' : store), run merge_sone m js s = Done s' -> List.length (h_ops s') = List.length (h_ops s)).
      { clear. assert (J : forall m (h : @heap optype) p q h', join m h p q = Done h' -> List.length h' = List.length h).
        { intros m h p q h'. apply join_length. }
        intros m js. assert (G : forall t xs s s', run1 merge_sone m t xs s = Done s' -> List.length (h_ops s') = List.length (h_ops s)).
        { intros t xs. induction xs as [|x xs IH]; intros s s' H; cbn in H; [injection H as <-; reflexivity|]. destruct (merge_sone m t x s) as [s1| |] eqn:E; try discriminate. rewrite (IH _ _ H).
          unfold merge_sone, on_sdirs, on_ops in E. destruct (join m (h_sdirs s) _ _); try discriminate. cbn [obind h_ops] in E. destruct (join m (h_ops s) _ _) as [h1| |] eqn:E1; try discriminate. injection E as <-. exact (J _ _ _ _ _ E1). }
        induction js as [|[t xs] js IH]; intros s s' H; cbn in H; [injection H as <-; reflexivity|]. destruct (run1 merge_sone m t xs s) as [s1| |] eqn:E; try discriminate. cbn [obind] in H. rewrite (IH _ _ H). exact (G _ _ _ _ E). }
      rewrite K6, Qo, (X _ _ _ _ HA), (X _ _ _ _ E1). apply Nat.lt_le_incl. exact (Rs _ (or_intror (or_introl eq_refl))). }
    rewrite (forEach_ok _ _ _ _ n Ro Lo). cbn [obind]. eexists s4, _. split; [reflexivity|]. split; [exact PB'|]. intros t' xs' sd' ys' E E'. injection E as <- <-. injection E' as <- <-. split; [|exact (indexed_fst (s_ops sd) 0%Z)].
    intros X (y & Hy & Hn). rewrite K5, Qd. apply Pd; [exact X|]. exists y. auto.
  - exists s4, []. split; [reflexivity|]. split; [exact PB'|]. discriminate.
Qed.
(** Otherwise the second build never returns. *)
Theorem C70_again_never : forall n s d js dd ds s' ops, document_laid_out s d js dd ds -> room s n -> build_in_place n d js s = Done (s', ops) -> ~ can_build_again dd ds ->
  forall m, build_in_place m d js s' = Diverge.
Proof.
  intros n s d js dd ds s' ops [Ls Lt] [Rt Rs] H Can m. destruct (build_parts _ _ _ _ _ _ H) as (s1 & E1 & E2 & K1 & K2 & K3). pose proof (same_heaps _ _ K1) as Sh. rewrite nodes_run in E2. rewrite schemas_run in E1.
  destruct (schemas_both n s (jobs d) (jobs dd) Ls Rs) as (s1' & E1' & S1 & _ & _ & _ & A1 & B1). rewrite E1 in E1'. injection E1' as <-.
  destruct (types_both n s1 js ds (laid_moved _ _ _ _ K1 Lt)) as (s2 & E2' & S2 & _ & _ & _ & A2 & B2); [intros f Hf; rewrite (Sh f Hf); exact (Rt f Hf)|]. rewrite E2 in E2'. injection E2' as <-.
  assert (S1' : sound schema_fields s' (jobs d)) by (intros f Hf; rewrite (schema_heaps s1 s' K2 K3 f Hf); exact (S1 f Hf)).
  unfold build_in_place. destruct (merge_schemas m d s') as [s3| |] eqn:E3; cbn [obind]; [|exfalso; rewrite schemas_run in E3; exact (run_sound schema_fields merge_sone schema_one schema_nil m (jobs d) s' S1' E3)|reflexivity].
  pose proof (schemas_keep _ _ _ _ E3) as K4. rewrite schemas_run in E3.
  assert (S2' : sound type_fields s3 js) by (intros f Hf; rewrite (same_heaps _ _ K4 f Hf); exact (S2 f Hf)).
  destruct (merge_nodes m js s3) as [s4| |] eqn:E4; cbn [obind]; [|exfalso; rewrite nodes_run in E4; exact (run_sound type_fields merge_one type_one type_nil m js s3 S2' E4)|reflexivity].
  destruct (nodes_keep _ _ _ _ E4) as [K5 K6]. rewrite nodes_run in E4.
  destruct (returns_again_dec type_fields ds) as [Ct|(f & Hf & Ct)].
  2: { exfalso. assert (Nt : ~ returns_again type_fields ds) by (intros X; exact (Ct (X f Hf))). specialize (B2 Nt m).
       rewrite (run_same_diverge type_fields merge_one type_one type_ex type_nil m js s' s3 (same_heaps _ _ K4) S2 B2) in E4. discriminate. }
  destruct (returns_again_dec schema_fields (jobs dd)) as [Cs|(f & Hf & Cs)].
  2: { exfalso. assert (Ns : ~ returns_again schema_fields (jobs dd)) by (intros X; exact (Cs (X f Hf))). specialize (B1 Ns m).
       rewrite (run_same_diverge schema_fields merge_sone schema_one schema_ex schema_nil m (jobs d) s1 s' (schema_heaps s1 s' K2 K3) S1 B1) in E3. discriminate. }
  destruct d as [[t xs]|], dd as [[sd ys]|]; try (pose proof (lo_same _ _ _ _ _ Ls) as X; inversion X; fail).
  - destruct (A1 Cs) as (sA & HA & PA).
    destruct (PA _ 0 _ _ (or_intror (or_introl eq_refl)) eq_refl eq_refl) as [Po _]. cbn [heap_of at_ of_ joins_it fst snd] in Po.
    destruct (run_same schema_fields merge_sone schema_one schema_ex n (jobs (Some (t, xs))) s1 s' sA (schema_heaps s1 s' K2 K3) HA) as (s5 & E5 & Q5).
    pose proof (run_fuel schema_fields merge_sone schema_one schema_ex schema_nil m n (jobs (Some (t, xs))) s' s3 s5 E3 E5 _ (or_intror (or_introl eq_refl)) : h_ops s3 = h_ops s5) as Q6.
    pose proof (Q5 _ (or_intror (or_introl eq_refl)) : h_ops s5 = h_ops sA) as Q7.
    assert (Nx : s_ops sd <> [] /\ exists y, In y ys /\ s_ops y <> []).
    { destruct (nil_dec (s_ops sd)) as [E|E].
      - exfalso. apply Can. split; [intros f td ys' Hf Hd; pose proof (Ct f Hf) as X; rewrite Forall_forall in X; exact (X _ Hd)|]. split; [|left; symmetry; exact E].
        pose proof (Cs _ (or_introl eq_refl)) as X. inversion X as [|? ? X1 _]; subst. unfold harmless_in in X1. cbn [fst snd of_ joins_it] in X1. rewrite filter_all in X1 by reflexivity. exact X1.
      - split; [congruence|]. destruct (Exists_dec (fun y => s_ops y <> []) ys) as [X|X]; [intros y; destruct (nil_dec (s_ops y)) as [Y|Y]; [right; congruence|left; congruence]| |].
        + apply Exists_exists in X. exact X.
        + exfalso. apply Can. split; [intros f td ys' Hf Hd; pose proof (Ct f Hf) as Z; rewrite Forall_forall in Z; exact (Z _ Hd)|]. split.
          * pose proof (Cs _ (or_introl eq_refl)) as Z. inversion Z as [|? ? Z1 _]; subst. unfold harmless_in in Z1. cbn [fst snd of_ joins_it] in Z1. rewrite filter_all in Z1 by reflexivity. exact Z1.
          * right. apply Forall_forall. intros y Hy. destruct (nil_dec (s_ops y)) as [Y|Y]; [symmetry; exact Y|]. destruct X. apply Exists_exists. exists y. split; [exact Hy|congruence]. }
    destruct Nx as [Nx (y & Hy & Hn)]. assert (En : endless (h_ops sA) (n_sops t)) by (apply Po; [exact Nx|exists y; auto]).
    rewrite K6, Q6, Q7. rewrite (En m). reflexivity.
  - exfalso. apply Can. split; [|exact I]. intros f td ys Hf Hd. pose proof (Ct f Hf) as X. rewrite Forall_forall in X. exact (X _ Hd).
Qed.
Print Assumptions C70_first. Print Assumptions C70_document. Print Assumptions C70_others. Print Assumptions C70_again_returns. Print Assumptions C70_again_never.

(** ** The hypotheses are met: [schema { query: Q }  extend schema { mutation: M }  type Q { a: A }  extend type Q { b: A }  extend type Q { c: A }]. *)
Lemma apart_by {A} (h : @heap A) p q ads xs bds ys : rep h p ads xs -> rep h q bds ys -> (forall a, In a ads -> ~ In a bds) -> apart h p q.
Proof. intros R1 R2 Dj a1 x1 b1 y1 R3 R4. destruct (rep_det _ _ _ _ _ _ R1 R3) as [-> _]. destruct (rep_det _ _ _ _ _ _ R2 R4) as [-> _]. exact Dj. Qed.
Lemma rep_one {A} (h : @heap A) a x : nth_error h a = Some (mkN x None 0%Z) -> rep h (Some a) [a] [x].
Proof. intros E. econstructor; [exact E|constructor]. Qed.
Section Sample.
Let fd (n : string) : fielddef := mkFd [] (B n) [] (TNamed (B "A") false) [].
Let q := mkOt Query (TNamed (B "Q") false).
Let m := mkOt Mutation (TNamed (B "M") false).
Let def (f : string) : tydef := mkTd KObject [] (B "Q") [] [] [fd f] [] [] [].
Definition sample_store : store := mkStore [] [] [mkN (fd "a") None 0; mkN (fd "b") None 0; mkN (fd "c") None 0]%Z [] [] [] [] [mkN q None 0; mkN m None 0]%Z.
Definition sample_node (a : nat) : tnode := mkT KObject None None (Some a) None None None.
Definition sample_schema : option (snode * list snode) := Some (mkS None (Some 0), [mkS None (Some 1)]).
Definition sample_types : list (tnode * list tnode) := [(sample_node 0, [sample_node 1; sample_node 2])].
Definition sample_defs : list (tydef * list tydef) := [(def "a", [def "b"; def "c"])].
Definition sample_sdef : option (schemadef * list schemadef) := Some (mkSd [] [q], [mkSd [] [m]]).
Ltac nil_field := first [exists []; constructor | exists [0]; apply rep_one; reflexivity | exists [1]; apply rep_one; reflexivity | exists [2]; apply rep_one; reflexivity].
Ltac apart_field := first [ apply (apart_by _ _ _ [] [] [] []); [constructor|constructor|intros a []]
  | eapply apart_by; [apply rep_one; reflexivity|apply rep_one; reflexivity|cbn; intros a [<-|[]] [X|[]]; discriminate] ].
Example C70_nonvacuous_laid : document_laid_out sample_store sample_schema sample_types sample_sdef sample_defs /\ room sample_store 9.
Proof.
  split; [split|].
  - constructor.
    + repeat constructor.
    + intros f Hf. each_field Hf; (repeat constructor); nil_field.
    + intros f Hf. each_field Hf; cbn; repeat first [apply FOP_nil | apply FOP_cons | apply Forall_nil | apply Forall_cons]; apart_field.
    + intros f Hf. each_field Hf; cbn; intros a c b E; destruct a as [|[|[|[|a]]]]; cbn in E; first [discriminate E|injection E as <-; discriminate].
  - constructor.
    + repeat constructor.
    + intros f Hf. each_field Hf; (repeat constructor); nil_field.
    + intros f Hf. each_field Hf; cbn; repeat first [apply FOP_nil | apply FOP_cons | apply Forall_nil | apply Forall_cons]; apart_field.
    + intros f Hf. each_field Hf; cbn; intros a c b E; destruct a as [|[|[|[|a]]]]; cbn in E; first [discriminate E|injection E as <-; discriminate].
  - split; intros f Hf; each_field Hf; cbn; lia.
Qed.
(** The first build makes [Q] read [a b c], its first extension [b c], and finds both operation types; the second never returns. *)
Example C70_nonvacuous : exists s', build_in_place 9 sample_schema sample_types sample_store = Done (s', [q; m]) /\
  forEach 9 (h_fields s') (Some 0) = Done [(fd "a", 0); (fd "b", 1); (fd "c", 2)]%Z /\ forEach 9 (h_fields s') (Some 1) = Done [(fd "b", 0); (fd "c", 1)]%Z /\
  forall k, build_in_place k sample_schema sample_types s' = Diverge.
Proof.
  eexists. split; [vm_compute; reflexivity|]. split; [vm_compute; reflexivity|]. split; [vm_compute; reflexivity|].
  refine (C70_again_never 9 sample_store sample_schema sample_types sample_sdef sample_defs _ _ (proj1 C70_nonvacuous_laid) (proj2 C70_nonvacuous_laid) _ _); [vm_compute; reflexivity|].
  intros [_ [_ [X|X]]]; [discriminate|]. inversion X as [|? ? X1]; discriminate.
Qed.
(** With a single extension the second build returns, and the list has become endless. *)
Example C70_nonvacuous_again : exists s' s'', build_in_place 9 None [(sample_node 0, [sample_node 1])] sample_store = Done (s', []) /\
  build_in_place 9 None [(sample_node 0, [sample_node 1])] s' = Done (s'', []) /\ (forall k, forEach k (h_fields s'') (Some 0) = Diverge).
Proof.
  eexists _, _. split; [vm_compute; reflexivity|]. split; [vm_compute; reflexivity|]. intros k. cbn [forEach h_fields].
  match goal with |- forEach_loop k ?h _ _ = _ => apply (looped_forEach h [0; 1]) end; [|left; reflexivity].
  intros a [<-|[<-|[]]]; eexists _, _, _; (split; [reflexivity|]); cbn; tauto.
Qed.
End Sample.
