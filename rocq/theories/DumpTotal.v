(** * DumpTotal: when the dumper panics (for the proof of C16). *)
From Verif Require Import Base Utf8 AST Lexer Grammar GrammarProps Dumper DumpSpec DumpProofs.

Definition ok (o : W) : Prop := o <> None.
Lemma ok_seq a b : ok (a +++ b) <-> ok a /\ ok b.
Proof. destruct a, b; cbn; unfold ok; intuition congruence. Qed.
Lemma ok_seq2 a b : ok a -> ok b -> ok (a +++ b). Proof. intros. apply ok_seq. auto. Qed.
Lemma ok_ws s : ok (ws s). Proof. discriminate. Qed.
Lemma ok_wr s : ok (wr s). Proof. discriminate. Qed.
Lemma ok_lf : ok wlf. Proof. discriminate. Qed.
Lemma ok_skip : ok wskip. Proof. discriminate. Qed.
Lemma ok_indent n : ok (indent n). Proof. discriminate. Qed.
Lemma ok_when c o : ok o -> ok (wwhen c o). Proof. destruct c; [auto|discriminate]. Qed.
Lemma ok_fori {A} (f : nat -> A -> W) l : forall i, ok (wfori f i l) <-> forall j x, nth_error l j = Some x -> ok (f (i + j) x).
Proof.
  induction l as [|x l IH]; intros i; cbn [wfori].
  - split; [intros _ [|j] y; discriminate|intros _; apply ok_skip].
  - rewrite ok_seq, IH. split.
    + intros [H1 H2] [|j] y E; cbn in E; [injection E as <-; rewrite Nat.add_0_r; exact H1|]. rewrite <- Nat.add_succ_comm. auto.
    + intros H. split; [specialize (H 0 x eq_refl); rewrite Nat.add_0_r in H; exact H|]. intros j y E. rewrite Nat.add_succ_comm. apply H. exact E.
Qed.
Lemma ok_for {A} (f : nat -> A -> W) l : (forall i x, In x l -> ok (f i x)) -> ok (wfor f l).
Proof. intros H. apply ok_fori. intros j x E. apply H. eapply nth_error_In, E. Qed.
Lemma ok_for_all {A} (f : nat -> A -> W) (P : A -> Prop) l : (forall i x, ok (f i x) <-> P x) -> ok (wfor f l) <-> Forall P l.
Proof.
  intros H. unfold wfor. rewrite ok_fori, Forall_forall. split.
  - intros F x Hx. apply In_nth_error in Hx as (j & E). apply (H (0 + j)). apply F. exact E.
  - intros F j x E. apply H, F. eapply nth_error_In, E.
Qed.
Create HintDb ok.
#[export] Hint Resolve ok_ws ok_wr ok_lf ok_skip ok_indent ok_when ok_for : ok.
Ltac oks := repeat first [simple apply ok_ws|simple apply ok_wr|simple apply ok_lf|simple apply ok_skip|simple apply ok_indent|simple apply ok_when|simple apply ok_seq2|simple apply ok_for; intros].

Section Total.
Variable fg : bytes -> bytes.
Lemma ok_string depth s : ok (dumpString depth s).
Proof. unfold dumpString. destruct (existsb (Ascii.eqb LF) s); oks. Qed.
Lemma ok_value depth v : ok (dumpValue fg depth v).
Proof.
  induction v as [n|z|l|s|b| |n|l IH|fs IH] using value_nest; cbn [dumpValue]; try (oks; fail).
  - apply ok_string.
  - destruct b; oks.
  - rewrite Forall_forall in IH. oks; auto.
  - rewrite Forall_forall in IH. oks; auto.
Qed.
Lemma ok_args depth l : ok (dumpArguments fg depth l).
Proof. unfold dumpArguments, dumpArgument. destruct (Nat.eqb (List.length l) 0); oks; apply ok_value. Qed.
Lemma ok_dirs depth l : ok (dumpOptDirectives fg depth l).
Proof. unfold dumpOptDirectives, dumpDirectives, dumpDirective. oks; apply ok_args. Qed.
Lemma ok_type t : ok (dumpType t) <-> has_items t.
Proof.
  induction t as [n nn|t IH nn|]; cbn [dumpType].
  - split; [constructor|]. intros _. oks.
  - rewrite !ok_seq, IH. split; [intros (_ & H & _); constructor; exact H|]. intros H. inversion H; subst. split; [oks|]. split; [assumption|split; oks].
  - split; [intros H; exfalso; apply H; reflexivity|]. intros H. inversion H.
Qed.
Lemma ok_sel s : forall depth, ok (dumpSelection fg depth s).
Proof.
  induction s as [al n args ds ss IH|n ds|c ds ss IH] using selection_nest; intros depth; cbn [dumpSelection]; try rewrite Forall_forall in IH.
  - oks; auto using ok_args, ok_dirs.
  - oks; auto using ok_dirs.
  - oks; auto using ok_dirs. destruct c; oks.
Qed.
Lemma ok_sels depth l : ok (dumpSelections fg depth l).
Proof. unfold dumpSelections. oks. apply ok_sel. Qed.
Lemma ok_default (o : option value) : ok (match o with Some d => ws " = " +++ dumpValue fg 0 d | None => wskip end).
Proof. destruct o; oks. apply ok_value. Qed.
Lemma ok_iff a b : ok a -> (ok (a +++ b) <-> ok b). Proof. rewrite ok_seq. tauto. Qed.
Lemma ok_iff_r a b : ok b -> (ok (a +++ b) <-> ok a). Proof. rewrite ok_seq. tauto. Qed.
Lemma ok_op defs o : ok (dumpOperationDefinition fg defs o) <-> Forall (fun v => has_items (v_type v)) (o_vars o).
Proof.
  unfold dumpOperationDefinition. cbv zeta. rewrite ok_iff by (destruct (o_kind o); oks). rewrite ok_iff by oks.
  rewrite ok_iff_r by (oks; auto using ok_dirs, ok_sels).
  destruct (o_vars o) as [|v l] eqn:E; [split; [constructor|intros _; oks]|]. rewrite <- E. clear E v l. cbn [nonnil wwhen].
  assert (X : ok (dumpVariableDefinitions fg (o_vars o)) <-> Forall (fun v => has_items (v_type v)) (o_vars o)).
  { unfold dumpVariableDefinitions. rewrite ok_iff by oks. rewrite ok_iff_r by oks. apply ok_for_all. intros i x. rewrite ok_iff_r by oks. unfold dumpVariableDefinition.
    rewrite !ok_iff by oks. rewrite ok_iff_r by apply ok_default. apply ok_type. }
  destruct (o_vars o) as [|v l] eqn:E; [split; [constructor|intros _; oks]|]. cbn [nonnil wwhen]. exact X.
Qed.
Lemma ok_frag f : ok (dumpFragmentDefinition fg f).
Proof. unfold dumpFragmentDefinition. oks; auto using ok_dirs, ok_sels. Qed.
Lemma ok_desc d : ok (dumpDescription d). Proof. unfold dumpDescription. oks. Qed.
Lemma ok_iv i : ok (dumpInputValueDefinition fg i).
Proof. unfold dumpInputValueDefinition. oks; auto using ok_desc, ok_default, ok_dirs. Qed.
Lemma ok_ads l : ok (dumpArgumentsDefinition fg l).
Proof. unfold dumpArgumentsDefinition. oks. apply ok_iv. Qed.
Lemma ok_fields l : ok (dumpFieldsDefinition fg l).
Proof. unfold dumpFieldsDefinition, dumpFieldDefinition. oks; auto using ok_desc, ok_ads, ok_dirs. Qed.
Lemma ok_inputs l : ok (dumpInputFieldsDefinition fg l).
Proof. unfold dumpInputFieldsDefinition. oks. apply ok_iv. Qed.
Lemma ok_values l : ok (dumpEnumValuesDefinition fg l).
Proof. unfold dumpEnumValuesDefinition, dumpEnumValueDefinition. oks; auto using ok_desc, ok_dirs. Qed.
Lemma ok_separated a b l : ok (dumpSeparated a b l).
Proof. unfold dumpSeparated. cbv zeta. destruct (Nat.ltb (List.length l) 3); oks. Qed.
Lemma ok_tydef ext t : ok (dumpTypeBody fg ext t).
Proof.
  unfold dumpTypeBody, dumpImplementsInterfaces, dumpUnionMemberTypes. apply ok_seq. split; [apply ok_when, ok_desc|]. apply ok_seq. split; [oks|].
  destruct (t_kind t); oks; auto using ok_dirs, ok_fields, ok_inputs, ok_values, ok_separated.
Qed.
Lemma ok_optype o : ok (dumpOperationTypeDefinition o) <-> has_items (ot_type o).
Proof. unfold dumpOperationTypeDefinition. rewrite ok_iff by oks. rewrite ok_iff by (destruct (ot_op o); cbn [opkind_string]; oks). rewrite ok_iff by oks. apply ok_type. Qed.
Lemma ok_ops l : ok (wfor (fun _ o => dumpOperationTypeDefinition o +++ wlf) l) <-> Forall (fun o => has_items (ot_type o)) l.
Proof. apply ok_for_all. intros i x. rewrite ok_iff_r by oks. apply ok_optype. Qed.

(** The types that are followed to their end. *)
Definition printed_types (b : body) : list ty :=
  match b with
  | DOp o => map v_type (o_vars o)
  | DSchema s | XSchema s => map ot_type (s_ops s)
  | _ => []
  end.
Lemma ok_body defs b : ok (dumpDefinition fg defs b) <-> Forall has_items (printed_types b).
Proof.
  destruct b; cbn [dumpDefinition printed_types]; rewrite ?Forall_map.
  - apply ok_op.
  - split; [constructor|intros _; apply ok_frag].
  - unfold dumpSchemaDefinition. rewrite ok_iff by oks. rewrite ok_iff by apply ok_dirs. rewrite !ok_iff by oks. rewrite ok_iff_r by oks. apply ok_ops.
  - split; [constructor|intros _; apply ok_tydef].
  - split; [constructor|intros _]. unfold dumpDirectiveDefinition, dumpDirectiveLocations. oks; auto using ok_desc, ok_ads, ok_separated. 
  - unfold dumpSchemaExtension. rewrite ok_iff by oks. rewrite ok_iff by apply ok_dirs.
    destruct (s_ops s) as [|o l]; [split; [constructor|intros _; oks]|]. cbn [nonnil wwhen]. rewrite !ok_iff by oks. rewrite ok_iff_r by oks. apply (ok_ops (o :: l)).
  - split; [constructor|intros _; apply ok_tydef].
Qed.
Theorem ok_sdump d : ok (sdump fg d) <-> Forall (fun x => Forall has_items (printed_types (def_body x))) (doc_defs d).
Proof.
  unfold sdump, dumpDefinitions. apply ok_for_all. intros i x. rewrite ok_iff by oks. rewrite ok_iff_r by oks. apply ok_body.
Qed.
End Total.
