(** * Messages: a validation error can be told from its message. *)
From Verif Require Import Base AST Context SchemaSpec LexSpec.

(** A text without quotation mark and without space; names and types are such. *)
Definition word (n : bytes) : Prop := ~ In (bz 34) n /\ ~ In (bz 32) n.
(** An error about such texts; operations, kinds and locations are those of the language. *)
Definition worded (e : err) : Prop :=
  match e with
  | EAnonNotAlone | ESchemaInExtension | ESchemaNotAlone => True
  | EDupArg n | EDupDirective n | EDupDirectiveName n | EDupInputField n | EDupOperationName n | EDupTypeName n | EExistedDirective n | EExistedType n
  | EExtendUnknown n | EInvalidName n | ETwoUnderscores n | ENonExecutable n | EReserved n | EUnknownDirective n | EUnknownType n => word n
  | EDupOperationType o | EExistedOperationType o => exists k, o = op_string k
  | EExtendKind n k => word n /\ exists t, k = kind_string t
  | EMisplaced n l => word n /\ exists p, In p location_names /\ l = location_by_name p
  | EMissingArg d a t => word d /\ word a /\ word t
  | EUnknownDirArg a d => word a /\ word d
  | EUnusedVariable v o => word v /\ word o
  | EMsg _ => False
  end.

Lemma split_at (c : byte) a b a' b' : ~ In c a -> ~ In c a' -> a ++ c :: b = a' ++ c :: b' -> a = a' /\ b = b'.
Proof.
  revert a'. induction a as [|x a IH]; intros [|y a'] Ha Ha' E; cbn [app] in E.
  - split; congruence.
  - exfalso. apply Ha'. left. congruence.
  - exfalso. apply Ha. left. congruence.
  - destruct (IH a') as [-> ->]; [intros H; apply Ha; right; exact H|intros H; apply Ha'; right; exact H|congruence|]. split; congruence.
Qed.
Lemma quoted n n' x y : word n -> word n' -> q n ++ x = q n' ++ y -> n = n' /\ x = y.
Proof.
  intros [H _] [H' _] E. unfold q in E. rewrite <- !app_assoc in E. apply app_inv_head in E. exact (split_at (bz 34) n x n' y H H' E).
Qed.
Lemma spaced n n' x y : word n -> word n' -> n ++ bz 32 :: x = n' ++ bz 32 :: y -> n = n' /\ x = y.
Proof. intros [_ H] [_ H'] E. exact (split_at (bz 32) n x n' y H H' E). Qed.
Lemma kind_inj k k' x : kind_string k ++ x = kind_string k' ++ x -> kind_string k = kind_string k'.
Proof. apply app_inv_tail. Qed.
Lemma same_app p (x y : bytes) : p ++ x = p ++ y -> x = y.
Proof. apply app_inv_head. Qed.
Lemma location_inj p p' : In p location_names -> In p' location_names -> location_name (location_by_name p) = location_name (location_by_name p') -> location_by_name p = location_by_name p'.
Proof.
  intros H H' E. assert (N : forall p, In p location_names -> location_name (location_by_name p) = p).
  { clear. intros p H. unfold location_names in H. repeat (destruct H as [<-|H]; [vm_compute; reflexivity|]). destruct H. }
  rewrite !N in E by assumption. congruence.
Qed.
Lemma unused_inj v v' o o' : word v -> word v' -> message (EUnusedVariable v o) = message (EUnusedVariable v' o') -> v = v' /\ o = o'.
Proof.
  intros Hv Hv' E. cbn [message] in E. apply same_app in E. change (B " is never used") with (bz 32 :: B "is never used") in E.
  rewrite <- !app_comm_cons in E. apply (spaced v v' _ _ Hv Hv') in E. destruct E as [-> E]. split; [reflexivity|]. apply same_app in E.
  destruct o as [|x o], o' as [|y o']; [reflexivity|discriminate|discriminate|]. apply same_app in E. exact E.
Qed.
Lemma kinds_inj n n' k k' : word n -> word n' -> message (EExtendKind n (kind_string k)) = message (EExtendKind n' (kind_string k')) -> n = n' /\ k = k'.
Proof.
  intros Hn Hn' E. cbn [message] in E. apply same_app in E. destruct k, k'; try discriminate E; apply same_app, same_app in E; apply quoted in E; tauto.
Qed.
Lemma existed_not k n : word n -> message (EExistedOperationType (op_string k)) = message (EExistedType n) -> False.
Proof.
  intros H E. assert (W : word (B "for")) by (split; intros F; repeat (destruct F as [F|F]; [discriminate F|]); exact F).
  assert (E' : B "for" ++ bz 32 :: op_string k ++ B " already defined in the schema. It cannot be redefined."
               = n ++ bz 32 :: B "already exists in the schema. It cannot also be defined in this type definition.").
  { apply (app_inv_head (B "Type ")). exact E. }
  apply (spaced _ _ _ _ W H) in E'. destruct E' as [_ E']. destruct k; discriminate E'.
Qed.
Ltac op_kind H := match type of H with exists _, _ = op_string _ => destruct H as ([] & ->) | _ => idtac end.
Lemma message_inj e e' : worded e -> worded e' -> message e = message e' -> e = e'.
Proof.
  destruct e, e'; intros H H' E; cbn [worded] in H, H'; try (exfalso; assumption); try reflexivity; op_kind H; op_kind H'; try reflexivity; try discriminate E.
  all: try (cbn [message] in E; apply same_app in E; apply quoted in E; [|assumption..]; destruct E as [-> E]; try reflexivity; discriminate E).
  all: try (cbn [message] in E; apply same_app in E; apply app_inv_tail in E; subst; reflexivity).
  all: try (cbn [message] in E; apply same_app in E; apply quoted in E; [|tauto..]; destruct E as [-> E]; discriminate E).
  1-3: exfalso; refine (existed_not _ _ H' E).
  1-3: exfalso; refine (existed_not _ _ H (eq_sym E)).
  - destruct H as (W & t & ->), H' as (W' & t' & ->). destruct (kinds_inj _ _ _ _ W W' E) as [-> ->]. reflexivity.
  - destruct H as (W & p & P & ->), H' as (W' & p' & P' & ->). cbn [message] in E. apply same_app in E. apply quoted in E; [|assumption..].
    destruct E as [-> E]. apply same_app, app_inv_tail in E. rewrite (location_inj p p' P P' E). reflexivity.
  - destruct H as (W1 & W2 & W3), H' as (W1' & W2' & W3'). cbn [message] in E. do 3 (apply same_app in E; apply quoted in E; [|assumption..]; destruct E as [-> E]). reflexivity.
  - destruct H as (W1 & W2), H' as (W1' & W2'). cbn [message] in E. do 2 (apply same_app in E; apply quoted in E; [|assumption..]; destruct E as [-> E]). reflexivity.
  - destruct (unused_inj _ _ _ _ (proj1 H) (proj1 H') E) as [-> ->]. reflexivity.
Qed.
