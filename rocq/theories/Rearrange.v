(** * Rearrange: what the rules look at does not depend on the order of the definitions (for the proof of C63). *)
From Coq Require Import Relations Permutation.
From Verif Require Import Base AST Parser Walker WalkSpec Context Rules CtxProofs RuleProofs RuleSpec QueryProofs PropRules SdlProofs PropSdl.
Import AST.

Definition bodies (d : document) : list body := map def_body (doc_defs d).

(** ** The nodes of a document, body by body *)
Definition outer (n : node) : bool :=
  match n with NDocument _ | NDefinitions _ | NDefinition _ _ | NExecutable _ _ | NTypeSystem _ | NTypeSystemExt _ => true | _ => false end.
Definition tSpecific (b : body) : tree :=
  match b with
  | DOp o => tOperation o | DFrag f => tFragment f | DSchema s => tSchemaDefinition s | DType t => tTypeDefinition t
  | DDir d => tDirectiveDefinition d | XSchema s => tSchemaExtension s | XType t => tTypeExtension t
  end.
Lemma flat_definition {Y} (f : node -> list Y) p : (forall n, outer n = true -> f n = []) ->
  flat_map f (preorder (tDefinition p)) = flat_map f (preorder (tSpecific (def_body (snd p)))).
Proof.
  intros H. unfold tDefinition, tBody. destruct (def_body (snd p)) eqn:E; cbn [preorder flat_map tSpecific]; rewrite !app_nil_r; cbn [flat_map]; rewrite !H by reflexivity; reflexivity.
Qed.
Lemma snd_numbered {X} (l : list X) : map snd (combine (seq 0 (List.length l)) l) = l.
Proof.
  generalize 0. induction l as [|x l IH]; intros k; [reflexivity|]. cbn [List.length seq combine map snd]. rewrite IH. reflexivity.
Qed.
Lemma flat_nodes {Y} (f : node -> list Y) d : (forall n, outer n = true -> f n = []) ->
  flat_map f (nodes d) = flat_map (fun b => flat_map f (preorder (tSpecific b))) (bodies d).
Proof.
  intros H. unfold nodes, tDocument. cbn [preorder flat_map]. rewrite (H (NDocument d) eq_refl). cbn [app]. unfold bodies. destruct (doc_defs d) as [|x l] eqn:E; [reflexivity|].
  unfold tNonnil. cbn [flat_map]. rewrite app_nil_r. unfold tDefinitions. cbn [preorder flat_map]. rewrite (H (NDefinitions (x :: l)) eq_refl). cbn [app]. unfold numbered.
  rewrite flat_flat. rewrite <- (snd_numbered (x :: l)) at 3. generalize (combine (seq 0 (List.length (x :: l))) (x :: l)). intros ps.
  induction ps as [|p ps IH]; [reflexivity|]. cbn [map flat_map]. rewrite (flat_definition f p H), IH. reflexivity.
Qed.
Lemma perm_nodes {Y} (f : node -> list Y) d d' : (forall n, outer n = true -> f n = []) -> Permutation (bodies d) (bodies d') ->
  Permutation (flat_map f (nodes d)) (flat_map f (nodes d')).
Proof. intros H P. rewrite !(flat_nodes f _ H). apply Permutation_flat_map, P. Qed.
Ltac nodal := intros P; apply perm_nodes; [intros n Hn; destruct n; try reflexivity; discriminate Hn|exact P].
Section Perm.
Variables d d' : document.
Lemma perm_type_refs : Permutation (bodies d) (bodies d') -> Permutation (type_refs d) (type_refs d'). Proof. nodal. Qed.
Lemma perm_applications : Permutation (bodies d) (bodies d') -> Permutation (applications d) (applications d'). Proof. nodal. Qed.
Lemma perm_directive_sites : Permutation (bodies d) (bodies d') -> Permutation (directive_sites d) (directive_sites d'). Proof. nodal. Qed.
Lemma perm_argument_sites : Permutation (bodies d) (bodies d') -> Permutation (argument_sites d) (argument_sites d'). Proof. nodal. Qed.
Lemma perm_object_sites : Permutation (bodies d) (bodies d') -> Permutation (object_sites d) (object_sites d'). Proof. nodal. Qed.
Lemma perm_defined_names : Permutation (bodies d) (bodies d') -> Permutation (defined_names d) (defined_names d'). Proof. nodal. Qed.
Lemma flat_bodies {Y} (f : body -> list Y) (x : document) : flat_map (fun q => f (def_body q)) (doc_defs x) = flat_map f (bodies x).
Proof. unfold bodies. induction (doc_defs x) as [|q l IH]; [reflexivity|]. cbn [map flat_map]. rewrite IH. reflexivity. Qed.
Lemma perm_bodies {Y} (f : body -> list Y) : Permutation (bodies d) (bodies d') ->
  Permutation (flat_map (fun q => f (def_body q)) (doc_defs d)) (flat_map (fun q => f (def_body q)) (doc_defs d')).
Proof. intros P. rewrite !flat_bodies. apply Permutation_flat_map, P. Qed.
Lemma perm_operations : Permutation (bodies d) (bodies d') -> Permutation (operations d) (operations d').
Proof. apply (perm_bodies (fun b => match b with DOp o => [o] | _ => [] end)). Qed.
Lemma perm_type_definitions : Permutation (bodies d) (bodies d') -> Permutation (type_definitions d) (type_definitions d').
Proof. apply (perm_bodies (fun b => match b with DType o => [o] | _ => [] end)). Qed.
Lemma perm_type_extensions : Permutation (bodies d) (bodies d') -> Permutation (type_extensions d) (type_extensions d').
Proof. apply (perm_bodies (fun b => match b with XType o => [o] | _ => [] end)). Qed.
Lemma perm_directive_definitions : Permutation (bodies d) (bodies d') -> Permutation (directive_definitions d) (directive_definitions d').
Proof. apply (perm_bodies (fun b => match b with DDir o => [o] | _ => [] end)). Qed.
Lemma perm_schema_definitions : Permutation (bodies d) (bodies d') -> Permutation (schema_definitions d) (schema_definitions d').
Proof. apply (perm_bodies (fun b => match b with DSchema o => [o] | _ => [] end)). Qed.
End Perm.

(** ** Lists *)
Lemma perm_filter {X} (f : X -> bool) l l' : Permutation l l' -> Permutation (filter f l) (filter f l').
Proof.
  induction 1; cbn; try constructor.
  - destruct (f x); [constructor|]; assumption.
  - destruct (f x), (f y); try apply Permutation_refl. apply perm_swap.
  - eapply Permutation_trans; eassumption.
Qed.
Lemma perm_later l l' : Permutation l l' -> Permutation (later l) (later l').
Proof. intros P. apply (Permutation_count_occ bytes_dec). intros x. rewrite !count_later. rewrite (Permutation_count_occ bytes_dec) in P. rewrite P. reflexivity. Qed.
Lemma perm_find {X} (f : X -> bool) l l' : Permutation l l' -> (forall x y, In x l -> In y l -> f x = true -> f y = true -> x = y) -> find f l = find f l'.
Proof.
  intros P U. destruct (find f l) as [x|] eqn:E.
  - apply find_some in E as [Hx Ex]. destruct (find f l') as [y|] eqn:E'.
    + apply find_some in E' as [Hy Ey]. f_equal. apply U; try assumption. apply (Permutation_in y (Permutation_sym P) Hy).
    + exfalso. pose proof (find_none _ _ E' x (Permutation_in x P Hx)). congruence.
  - destruct (find f l') as [y|] eqn:E'; [|reflexivity]. exfalso. apply find_some in E' as [Hy Ey]. pose proof (find_none _ _ E y (Permutation_in y (Permutation_sym P) Hy)). congruence.
Qed.
Lemma nodup_unique {X} (name : X -> bytes) l n : NoDup (map name l) -> forall x y, In x l -> In y l ->
  (if bytes_dec n (name x) then true else false) = true -> (if bytes_dec n (name y) then true else false) = true -> x = y.
Proof.
  intros N x y Hx Hy. destruct (bytes_dec n (name x)) as [E|]; [|discriminate]. destruct (bytes_dec n (name y)) as [E'|]; [|discriminate]. intros _ _. rewrite E in E'. clear n E.
  induction l as [|z l IH]; [destruct Hx|]. cbn [map] in N. apply NoDup_cons_iff in N as [Nz N]. destruct Hx as [->|Hx], Hy as [->|Hy]; auto.
  - destruct Nz. rewrite E'. apply in_map, Hy.
  - destruct Nz. rewrite <- E'. apply in_map, Hx.
Qed.

(** ** Errors, kind by kind *)
Definition err_dec (a b : err) : {a = b} + {a <> b}.
Proof. repeat decide equality. Defined.
Lemma count_reported k c e : k e = true -> count_occ err_dec (reported k c) e = count_occ err_dec (c_errors c) e.
Proof.
  intros H. unfold reported. assert (R : forall l, count_occ err_dec (rev l) e = count_occ err_dec l e).
  { intros l. apply (Permutation_count_occ err_dec). apply Permutation_sym, Permutation_rev. }
  rewrite R. induction (c_errors c) as [|x l IH]; [reflexivity|]. cbn [filter]. destruct (k x) eqn:Ek; cbn [count_occ]; rewrite IH; destruct (err_dec x e) as [->|]; try reflexivity. congruence.
Qed.
Lemma by_kind (ks : list (err -> bool)) c c' :
  (forall e, In e (c_errors c) -> existsb (fun k => k e) ks = true) -> (forall e, In e (c_errors c') -> existsb (fun k => k e) ks = true) ->
  (forall k, In k ks -> Permutation (reported k c) (reported k c')) -> Permutation (c_errors c) (c_errors c').
Proof.
  intros A A' P. apply (Permutation_count_occ err_dec). intros e. destruct (existsb (fun k => k e) ks) eqn:E.
  - apply existsb_exists in E as (k & Hk & He). rewrite <- !(count_reported k _ e He). apply (Permutation_count_occ err_dec), P, Hk.
  - assert (N : ~ In e (c_errors c)) by (intros H; rewrite (A e H) in E; discriminate). assert (N' : ~ In e (c_errors c')) by (intros H; rewrite (A' e H) in E; discriminate).
    apply (count_occ_not_In err_dec) in N, N'. congruence.
Qed.

(** ** Variables *)
Definition has_spread (b : body) (n : bytes) : Prop := exists ds, In (NFragmentSpread (SSpread n ds)) (preorder (tSpecific b)).
Definition has_variable (b : body) (v : bytes) : Prop := In (NVariableValue (VVar v)) (preorder (tSpecific b)).
(** [b] spreads a fragment [b'] of the document *)
Definition leads (bs : list body) (b b' : body) : Prop := In b' bs /\ exists f, b' = DFrag f /\ has_spread b (f_name f).
Definition uses (bs : list body) (b : body) (v : bytes) : Prop := exists b', (b' = b \/ clos_trans body (leads bs) b b') /\ has_variable b' v.
Lemma below_specific i d n : outer n = false -> below (NDefinition i d) n <-> In n (preorder (tSpecific (def_body d))).
Proof.
  intros O. change (NDefinition i d) with (root (tDefinition (i, d))). rewrite <- (preorder_below _ (ok_definition (i, d))). unfold tDefinition, tBody. cbn [fst snd preorder flat_map]. rewrite app_nil_r.
  destruct (def_body d) eqn:E; cbn [preorder flat_map tSpecific In]; rewrite app_nil_r; split; intros H; auto; repeat (destruct H as [H|H]; [subst n; discriminate O|]); exact H.
Qed.
Lemma nth_body d i x : nth_error (doc_defs d) i = Some x -> nth_error (bodies d) i = Some (def_body x).
Proof. intros H. unfold bodies. apply map_nth_error, H. Qed.
Lemma body_nth d i b : nth_error (bodies d) i = Some b -> exists x, nth_error (doc_defs d) i = Some x /\ def_body x = b.
Proof.
  unfold bodies. rewrite nth_error_map. destruct (nth_error (doc_defs d) i) as [x|]; [|discriminate]. cbn. intros H. injection H as <-. eauto.
Qed.
Lemma spreads_leads d i j b : nth_error (bodies d) i = Some b -> spreads d i j -> exists b', nth_error (bodies d) j = Some b' /\ leads (bodies d) b b'.
Proof.
  intros Hb (x & n & ds & f & y & Hx & Hs & Hy & Ef & En). apply nth_body in Hx. rewrite Hx in Hb. injection Hb as <-. pose proof (nth_body _ _ _ Hy) as Hy'. exists (def_body y). split; [exact Hy'|].
  split; [eapply nth_error_In, Hy'|]. exists f. split; [exact Ef|]. exists ds. rewrite En. apply (below_specific i x); [reflexivity|exact Hs].
Qed.
Lemma leads_spreads d i b b' : nth_error (bodies d) i = Some b -> leads (bodies d) b b' -> forall j, nth_error (bodies d) j = Some b' -> spreads d i j.
Proof.
  intros Hb (_ & f & -> & ds & Hs) j Hj. destruct (body_nth _ _ _ Hb) as (x & Hx & <-). destruct (body_nth _ _ _ Hj) as (y & Hy & Ey).
  exists x, (f_name f), ds, f, y. split; [exact Hx|]. split; [apply (below_specific i x); [reflexivity|exact Hs]|]. auto.
Qed.
Lemma used_uses d i b v : nth_error (bodies d) i = Some b -> used d i v <-> uses (bodies d) b v.
Proof.
  intros Hb. split.
  - intros (j & Hj & (y & Hy & Ho)). exists (def_body y). split; [|apply (below_specific j y); [reflexivity|exact Ho]]. apply nth_body in Hy. destruct Hj as [->|Hj]; [left; congruence|right].
    revert b Hb y Hy Ho. apply clos_trans_t1n in Hj. induction Hj as [i j H|i k j H _ IH]; intros b Hb y Hy Ho.
    + destruct (spreads_leads d i j b Hb H) as (b' & Hb' & L). rewrite Hy in Hb'. injection Hb' as <-. apply t_step, L.
    + destruct (spreads_leads d i k b Hb H) as (b' & Hb' & L). eapply t_trans; [apply t_step, L|]. apply IH; assumption.
  - intros (b' & Hj & Hv).
    assert (X : exists j, (j = i \/ clos_trans nat (spreads d) i j) /\ nth_error (bodies d) j = Some b').
    { destruct Hj as [->|Hj]; [exists i; auto|]. clear Hv. apply clos_trans_tn1 in Hj. induction Hj as [b' L|b1 b' L _ IH].
      - destruct (In_nth_error _ _ (proj1 L)) as (j & Ej). exists j. split; [|exact Ej]. right. apply t_step. eapply leads_spreads; eassumption.
      - destruct IH as (k & Hk & Ek). destruct (In_nth_error _ _ (proj1 L)) as (j & Ej). exists j. split; [|exact Ej]. right. pose proof (leads_spreads d k _ _ Ek L j Ej) as S.
        destruct Hk as [->|Hk]; [apply t_step, S|eapply t_trans; [exact Hk|apply t_step, S]]. }
    destruct X as (j & Hj' & Ej). exists j. split; [exact Hj'|]. destruct (body_nth _ _ _ Ej) as (y & Hy & <-). exists y. split; [exact Hy|]. apply (below_specific j y); [reflexivity|exact Hv].
Qed.
Lemma uses_incl bs bs' b v : incl bs bs' -> uses bs b v -> uses bs' b v.
Proof.
  intros I (b' & Hj & Hv). exists b'. split; [|exact Hv]. destruct Hj as [->|Hj]; [left; reflexivity|right]. clear Hv. induction Hj as [x y (Hi & H)|x y z _ IH1 _ IH2]; [apply t_step; split; [apply I, Hi|exact H]|eapply t_trans; eassumption].
Qed.
Definition executable_body (b : body) : bool := match b with DOp _ | DFrag _ => true | _ => false end.
(** variables occur in operations and fragments only *)
Definition strayless (bs : list body) : Prop := forall b v, In b bs -> has_variable b v -> executable_body b = true.
Lemma strayless_no_stray d : strayless (bodies d) <-> no_stray_variables d.
Proof.
  split.
  - intros H i x v Hx Hb. apply (below_specific i x (NVariableValue (VVar v)) eq_refl) in Hb. apply (H (def_body x) v) in Hb; [exact Hb|]. eapply nth_error_In, nth_body, Hx.
  - intros H b v Hi Hv. destruct (In_nth_error _ _ Hi) as (i & Hn). destruct (body_nth _ _ _ Hn) as (x & Hx & <-). apply (H i x v Hx). apply (below_specific i x (NVariableValue (VVar v)) eq_refl), Hv.
Qed.
Lemma uses_decidable bs : strayless bs -> exists ub, forall b v, In b bs -> executable_body b = true -> ub b v = true <-> uses bs b v.
Proof.
  intros S. set (doc := fun b => mkDoc (map (mkDef 0 0) (b :: bs)) 0 0 0 0 0 0 0).
  exists (fun b v => match recursive_variable_usages (new_context (doc b) None) 0 with Some l => inb v l | None => false end). intros b v Hb Hx.
  assert (E : bodies (doc b) = b :: bs) by (unfold bodies, doc; cbn [doc_defs]; rewrite map_map; cbn [def_body]; apply map_id).
  assert (N : no_stray_variables (doc b)).
  { apply strayless_no_stray. rewrite E. intros c w [<-|Hc] Hw; [apply (S b w Hb Hw)|apply (S c w Hc Hw)]. }
  destruct (C39_variable_usages (doc b) None 0 (mkDef 0 0 b) N eq_refl Hx) as (l & -> & _ & Hl). rewrite inb_In, Hl, (used_uses (doc b) 0 b v) by (rewrite E; reflexivity). rewrite E.
  split; apply uses_incl; intros c Hc; [destruct Hc as [<-|Hc]; assumption|right; exact Hc].
Qed.
Definition unused_in (ub : body -> bytes -> bool) (b : body) : list err :=
  match b with DOp o => map (fun v => EUnusedVariable (v_name v) (o_name o)) (filter (fun v => negb (ub b (v_name v))) (o_vars o)) | _ => [] end.
Lemma unused_bodies d s ub : strayless (bodies d) -> (forall b v, In b (bodies d) -> executable_body b = true -> ub b v = true <-> uses (bodies d) b v) ->
  reported is_unused (validate d s) = flat_map (unused_in ub) (bodies d).
Proof.
  intros S H. set (ui := fun i v => match nth_error (bodies d) i with Some b => ub b v | None => false end).
  rewrite (C19_exact d s ui); [|apply strayless_no_stray, S|].
  - unfold unused_errors. unfold bodies at 1. rewrite <- (snd_numbered (doc_defs d)) at 3. rewrite map_map.
    assert (G : forall ps : list (nat * definition), (forall i x, In (i, x) ps -> nth_error (doc_defs d) i = Some x) -> flat_map (fun p => match def_body (snd p) with
      | DOp o => map (fun v => EUnusedVariable (v_name v) (o_name o)) (filter (fun v => negb (ui (fst p) (v_name v))) (o_vars o)) | _ => [] end) ps = flat_map (unused_in ub) (map (fun x => def_body (snd x)) ps)).
    { induction ps as [|[i x] ps IH]; intros Hp; [reflexivity|]. cbn [map flat_map fst snd]. rewrite IH by (intros j y Hj; apply Hp; right; exact Hj). f_equal. specialize (Hp i x (or_introl eq_refl)). apply nth_body in Hp.
      unfold ui. rewrite Hp. unfold unused_in. reflexivity. }
    apply G. intros i x Hi. apply numbered_In. exact Hi.
  - intros i x v Hx He. unfold ui. pose proof (nth_body _ _ _ Hx) as Hb. rewrite Hb, (used_uses d i _ v Hb). apply H; [eapply nth_error_In, Hb|exact He].
Qed.
Lemma perm_unused d d' s : strayless (bodies d) -> Permutation (bodies d) (bodies d') -> Permutation (reported is_unused (validate d s)) (reported is_unused (validate d' s)).
Proof.
  intros S P. destruct (uses_decidable (bodies d) S) as (ub & H).
  assert (I : forall b, In b (bodies d') <-> In b (bodies d)) by (intros b; split; apply Permutation_in; [apply Permutation_sym|]; exact P).
  rewrite (unused_bodies d s ub S H), (unused_bodies d' s ub).
  - apply Permutation_flat_map, P.
  - intros b v Hb. apply S, I, Hb.
  - intros b v Hb Hx. rewrite (H b v (proj1 (I b) Hb) Hx). split; apply uses_incl; intros c; apply I.
Qed.
