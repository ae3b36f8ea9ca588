(** * PropWalkDepth: theorem C73 (how many nodes a traversal has open at once). *)
From Coq Require Import Lia.
From Verif Require Import Base Utf8 Lexer LexSpec PropLex AST Parser Grammar PropParse ParserDepth DepthSpec PropDepth Walker WalkSpec PropWalk WalkDepth Samples.

(** ** C73.  While a document is walked, the nodes entered and not yet left (which are the calls of the walker in progress) are at most thirteen, and three
    for each level of nesting of the document. *)
Theorem C73_at_most : forall d k, document_fits k d -> open_at_most (3 * k + 13) (walk recorder d []).
Proof.
  intros d k H. rewrite (C18_recorded d (tDocument d) eq_refl (ok_document d)). apply open_height, up_document, H.
Qed.
Print Assumptions C73_at_most.
(** And at least one for each level: if at most [k] are ever open, nothing in the document is nested deeper. *)
Theorem C73_at_least : forall d k, open_at_most k (walk recorder d []) -> document_fits k d.
Proof.
  intros d k H. rewrite (C18_recorded d (tDocument d) eq_refl (ok_document d)) in H. apply low_document, open_height, H.
Qed.
Print Assumptions C73_at_least.
(** The nesting of the source bounds the traversal of what it parses to. *)
Theorem C73_source : forall fok i d ts h, parse fok i = Doc d -> tokens i ts -> nested_at_most h ts -> open_at_most (3 * h + 16) (walk recorder d []).
Proof.
  intros fok i d ts h Hp Ht Hn. replace (3 * h + 16) with (3 * S h + 13) by lia. apply C73_at_most.
  pose proof (C71_enough fok i ts h (S h) Ht Hn ltac:(lia)) as E. apply (C71_needed fok i (S h)); [rewrite E, Hp; discriminate|exact Hp].
Qed.
Print Assumptions C73_source.
(** What handlers are registered, and what they do, has no influence on which nodes are open: every traversal enters and leaves what the recorder does. *)
Theorem C73_any_walker : forall (C : Type) (w : walker C) d c,
  walk w d c = fold_left (fun c e => fold_left (fun c h => h c (snd e)) (w (fst e) (ntype_of (snd e))) c) (walk recorder d []) c.
Proof.
  intros C w d c. rewrite (C18_recorded d (tDocument d) eq_refl (ok_document d)). destruct (C18_walk_order C w d) as (t & R & Ht & E).
  rewrite (C18_tree_unique d (tDocument d) t (ok_document d) Ht eq_refl R). apply E.
Qed.
Print Assumptions C73_any_walker.
(** No bound holds for every document: some have more than any number open. *)
Theorem C73_no_bound : forall fok n, exists d, parse fok (utf8s (pile n)) = Doc d /\ ~ open_at_most n (walk recorder d []).
Proof.
  intros fok n. destruct (C71_no_bound fok n) as (d & Hp & Hds & _ & Hw). exists d. split; [exact Hp|]. intros H. apply C73_at_least in H.
  unfold document_fits in H. assert (E : exists x, In x (doc_defs d) /\ def_body x = DOp (mkOp Query [] [] [] (piled n))).
  { destruct (doc_defs d) as [|x l]; [discriminate|]. exists x. split; [left; reflexivity|]. cbn [map] in Hds. congruence. }
  destruct E as (x & Hx & Eb). pose proof (proj1 (Forall_forall _ _) H x Hx) as F. cbv beta in F. rewrite Eb in F. destruct F as (_ & _ & F). cbn [o_sels] in F.
  apply piled_fits in F. lia.
Qed.
Print Assumptions C73_no_bound.

(** Neither number can be lowered: for every nesting there is a document with exactly so many nodes open. *)
Fixpoint in_objects (n : nat) : value := match n with 0 => VInt 1 | S n => VObject [(B "f", in_objects n)] end.
Definition deep_directive (n : nat) : document :=
  mkDoc [mkDef 1 1 (DType (mkTd KObject [] (B "A") [] []
    [mkFd [] (B "a") [mkIv [] (B "b") (TNamed (B "C") false) None [mkDir (B "d") [mkArg (B "e") (in_objects n)] LArgumentDefinition]] (TNamed (B "D") false) []] [] [] []))] 0 0 0 0 1 0 0.
Lemma objects_height n : height (tValue (in_objects n)) = 3 * n + 2.
Proof.
  induction n as [|n IH]; [reflexivity|]. cbn [in_objects tValue map snd]. rewrite height_node, hs_cons, hs_nil, height_node, hs_cons, hs_nil, height_node, hs_cons, hs_nil, IH. lia.
Qed.
Theorem C73_exact : forall n, document_fits (S n) (deep_directive n) /\
  forall m, open_at_most m (walk recorder (deep_directive n) []) <-> 3 * S n + 13 <= m.
Proof.
  intros n. split.
  - constructor; [|constructor]. split; [constructor|]. split; [constructor|]. split; [|split; [constructor|]; split; constructor].
    constructor; [|constructor]. split; [|split; [exact I|constructor]]. constructor; [|constructor]. split; [exact I|]. split; [exact I|].
    constructor; [|constructor]. constructor; [|constructor]. change (value_fits (S n) (in_objects n)).
    induction n as [|n IH]; [exact I|]. constructor; [exact IH|constructor].
  - intros m. rewrite (C18_recorded _ (tDocument (deep_directive n)) eq_refl (ok_document _)), open_height.
    assert (E : height (tDocument (deep_directive n)) = 3 * S n + 13); [|rewrite E; reflexivity].
    cbn -[tValue Nat.max in_objects Nat.mul]. rewrite objects_height, !Nat.max_0_r. lia.
Qed.
Print Assumptions C73_exact.
(** A parsed document whose nesting is at most seven, the bound 34 and the number of nodes open 26; and one where the bound is reached. *)
Example C73_nonvacuous : (exists d, parse anyfloat nested_query = Doc d /\ document_fits 7 d /\
    open_at_most 26 (walk recorder d []) /\ ~ open_at_most 25 (walk recorder d [])) /\
  (exists d, parse anyfloat (B "type A{a(b:C@d(e:{f:1})):D}") = Doc d /\ map def_body (doc_defs d) = map def_body (doc_defs (deep_directive 1)) /\
    open_at_most 19 (walk recorder d []) /\ ~ open_at_most 18 (walk recorder d [])).
Proof.
  assert (G : forall d m, Nat.eqb (height (tDocument d)) (S m) = true -> open_at_most (S m) (walk recorder d []) /\ ~ open_at_most m (walk recorder d [])).
  { intros d m H. apply Nat.eqb_eq in H. rewrite (C18_recorded _ (tDocument d) eq_refl (ok_document _)), !open_height, H. lia. }
  assert (F : forall i d k, parse anyfloat i = Doc d -> (match parse_within anyfloat k i with Diverges => false | _ => true end) = true -> document_fits k d).
  { intros i d k Hp Hw. apply (C71_needed anyfloat i k); [|exact Hp]. intros E. rewrite E in Hw. discriminate. }
  split.
  - destruct (parse anyfloat nested_query) as [d| | |] eqn:E; try (vm_compute in E; discriminate). exists d. split; [reflexivity|].
    split; [apply (F nested_query); [exact E|vm_compute; reflexivity]|]. apply G. vm_compute in E. injection E as <-. vm_compute. reflexivity.
  - eexists. split; [vm_compute; reflexivity|]. split; [vm_compute; reflexivity|]. apply G. vm_compute. reflexivity.
Qed.
