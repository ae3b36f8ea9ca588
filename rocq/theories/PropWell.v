(** * PropWell: C55 — the documents [Parse] returns are well-formed.

    The specification is [wf_document] (WellFormed.v): every identifier is a name, an enum value is not true, false or
    null, a fragment is not called "on", integers fit in 64 bits, selection sets are not empty, every directive records
    the kind of place it stands at, each type has only the parts of its kind, a directive definition has at least one
    location. *)
From Verif Require Import Base Utf8 Lexer LexSpec AST Parser Grammar PropParse SchemaSpec WellFormed WellProofs NameTokens.

(** For every input, byte for byte, valid UTF-8 or not. *)
Theorem C55_any_input fok i d : parse fok i = Doc d -> wf_document (name_in i) (fun l => fok l = true) d.
Proof.
  intros H. destruct (C13_sound fok i d H) as (ts & Ht & (e & _ & Hg) & _). eapply defs_gives; [|exact Hg]. exact (tokens_text i ts Ht).
Qed.

(** For every text, i.e. valid UTF-8, without NUL characters the names are names. *)
Lemma proper_last p : proper_name p -> exists q b, p = q ++ [b] /\ (0 < zb b < 128)%Z.
Proof.
  intros (c & r & -> & Hc & Hr). destruct (exists_last (l := c :: r) ltac:(discriminate)) as (q & b & E). exists q, b. split; [exact E|].
  assert (In b (c :: r)) as Hb by (rewrite E; apply in_app_iff; right; left; reflexivity).
  assert (letter (zb b) \/ digit (zb b)) as L by (destruct Hb as [<-|Hb]; [left; exact Hc|]; rewrite Forall_forall in Hr; exact (Hr b Hb)).
  unfold letter, digit in L. lia.
Qed.
Lemma utf8_nil c : utf8 c <> [].
Proof. unfold utf8. destruct (c <? 128)%Z, (c <? 2048)%Z, (c <? 65536)%Z; discriminate. Qed.
Lemma utf8_ends c : scalar c -> exists q b, utf8 c = q ++ [b] /\ ((zb b < 128)%Z \/ exists q' b', q = q' ++ [b'] /\ (128 <= zb b')%Z).
Proof.
  intros Hc. assert (forall a, (0 <= a < 64)%Z -> (128 <= zb (bz (128 + a)))%Z) as T by (intros; rewrite zb_bz; lia).
  pose proof (Z.mod_pos_bound (c / 64) 64 ltac:(lia)). unfold utf8. destruct (c <? 128)%Z eqn:E1.
  - exists [], (bz c). split; [reflexivity|]. left. unfold scalar in Hc. rewrite zb_bz; lia.
  - destruct (c <? 2048)%Z eqn:E2.
    + exists [bz (192 + c / 64)], (bz (128 + c mod 64)). split; [reflexivity|]. right. exists [], (bz (192 + c / 64)). split; [reflexivity|].
      assert (0 <= c / 64 < 32)%Z by (split; [apply Z.div_pos|apply Z.div_lt_upper_bound]; lia). rewrite zb_bz; lia.
    + destruct (c <? 65536)%Z.
      * exists [bz (224 + c / 4096); bz (128 + (c / 64) mod 64)], (bz (128 + c mod 64)). split; [reflexivity|]. right. eexists [_], _. split; [reflexivity|]. apply T. lia.
      * eexists [_; _; _], _. split; [reflexivity|]. right. eexists [_; _], _. split; [reflexivity|]. apply T. lia.
Qed.
Lemma text_no_junk cs q p b : Forall scalar cs -> utf8s cs = q ++ p ++ [b] -> proper_name p -> (128 <= zb b)%Z -> False.
Proof.
  intros Hs H Hp Hb. destruct (proper_last p Hp) as (p' & x & -> & Hx).
  destruct (exists_last (l := cs)) as (cs' & c & ->). { intros ->. destruct q, p'; discriminate. }
  apply Forall_app in Hs. destruct Hs as [_ Hs]. inversion Hs as [|? ? Hc _]; subst. unfold utf8s in H. rewrite flat_map_app in H. cbn [flat_map] in H. rewrite app_nil_r in H.
  destruct (utf8_ends c Hc) as (u & b' & Hu & Hcase). rewrite Hu, !app_assoc in H. apply app_inj_tail in H. destruct H as [H ->].
  destruct Hcase as [Hcase|(u' & x' & -> & Hx')]; [lia|]. rewrite !app_assoc in H. apply app_inj_tail in H. destruct H as [_ ->]. lia.
Qed.
Lemma utf8_zero c : scalar c -> c <> 0%Z -> Forall (fun b => zb b <> 0%Z) (utf8 c).
Proof.
  intros Hc Hn. assert (forall a, (0 <= a < 64)%Z -> zb (bz (128 + a)) <> 0%Z) as T by (intros; rewrite zb_bz; lia).
  pose proof (Z.mod_pos_bound (c / 64) 64 ltac:(lia)). pose proof (Z.mod_pos_bound c 64 ltac:(lia)). pose proof (Z.mod_pos_bound (c / 4096) 64 ltac:(lia)).
  unfold scalar in Hc. unfold utf8. destruct (c <? 128)%Z eqn:E1; [repeat constructor; rewrite zb_bz; lia|]. destruct (c <? 2048)%Z eqn:E2.
  - assert (0 <= c / 64 < 32)%Z by (split; [apply Z.div_pos|apply Z.div_lt_upper_bound]; lia). repeat constructor; [rewrite zb_bz; lia|apply T; lia].
  - destruct (c <? 65536)%Z eqn:E3.
    + assert (0 <= c / 4096 < 16)%Z by (split; [apply Z.div_pos|apply Z.div_lt_upper_bound]; lia). repeat constructor; [rewrite zb_bz; lia|apply T; lia..].
    + assert (0 <= c / 262144 < 8)%Z by (split; [apply Z.div_pos|apply Z.div_lt_upper_bound]; lia). repeat constructor; [rewrite zb_bz; lia|apply T; lia..].
Qed.
Lemma names_proper cs n : Forall scalar cs -> ~ In 0%Z cs -> name_in (utf8s cs) n -> proper_name n.
Proof.
  intros Hs Hz (q & r & Hi & [H|(p & b & -> & Hp & [Hb|[Hb ->]])]); [exact H| |]; exfalso.
  - assert (Forall (fun b => zb b <> 0%Z) (utf8s cs)) as F.
    { clear - Hs Hz. induction cs as [|c cs IH]; [constructor|]. inversion Hs; subst. unfold utf8s. cbn [flat_map]. apply Forall_app. split; [|apply IH; auto; intros X; apply Hz; right; exact X].
      apply utf8_zero; [assumption|]. intros ->. apply Hz. left. reflexivity. }
    rewrite Hi, Forall_forall in F. apply (F b); [|exact Hb]. rewrite !in_app_iff. right; left; right; left. reflexivity.
  - rewrite app_nil_r in Hi. eapply text_no_junk; eassumption.
Qed.
Theorem C55_text fok cs d : Forall scalar cs -> ~ In 0%Z cs -> parse fok (utf8s cs) = Doc d -> wf_document proper_name (fun l => fok l = true) d.
Proof.
  intros Hs Hz H. destruct (C13_sound fok _ d H) as (ts & Ht & (e & _ & Hg) & _). eapply defs_gives; [|exact Hg].
  eapply Forall_impl; [|exact (tokens_text _ ts Ht)]. intros t Hn K. apply (names_proper cs); auto.
Qed.

(** The hypotheses matter: a NUL character right after a name becomes part of it, and so does a stray byte at the end. *)
Definition nul : string := String (ascii_of_nat 0) "".
Definition stray : string := String (ascii_of_nat 195) "".
Theorem C55_refuted_bytes fok :
  (exists d, parse fok (B ("{ a" ++ nul ++ " }")%string) = Doc d /\ ~ wf_document proper_name (fun _ => True) d) /\
  (exists d, parse fok (B ("scalar A" ++ stray)%string) = Doc d /\ ~ wf_document proper_name (fun _ => True) d).
Proof.
  split; eexists; (split; [vm_compute; reflexivity|]); intros [_ H]; inversion H as [|? ? Hb _]; subst.
  - destruct Hb as (_ & _ & _ & _ & Hb). inversion Hb as [|? ? Hf _]; subst. inversion Hf as [? ? ? ? ? _ Hn _ _ _| |]; subst.
    destruct Hn as (c & r & E & _ & Hr). injection E as <- <-. inversion Hr as [|? ? X _]; subst. unfold letter, digit in X. cbn in X. lia.
  - destruct Hb as (Hn & _). destruct Hn as (c & r & E & _ & Hr). injection E as <- <-. inversion Hr as [|? ? X _]; subst. unfold letter, digit in X. cbn in X. lia.
Qed.

(** A text that meets the hypotheses, with every kind of definition. *)
Definition sample_text : list Z := map zb (B "query Q ($v: [Int!] = [1]) @a { x: f (e: RED) { ... on T @b { g } ...F } } fragment F on T { h } directive @d on FIELD | ENUM enum E { RED @x } extend schema @y type T implements I { f (a: Int = 2): T } union U = A | B input N { n: Int } interface I { i: Int } scalar S").
Example C55_nonvacuous : Forall scalar sample_text /\ ~ In 0%Z sample_text /\
  exists d, parse (fun _ => true) (utf8s sample_text) = Doc d /\ List.length (doc_defs d) = 10 /\ wf_document proper_name (fun _ => true = true) d.
Proof.
  assert (Forall scalar sample_text) as Hs.
  { apply Forall_forall. intros z Hz. apply in_map_iff in Hz. destruct Hz as (b & <- & Hb). revert b Hb. apply Forall_forall.
    apply (Forall_impl _ (P := fun b => (zb b <? 128)%Z = true)); [intros b Hb; pose proof (zb_range b); unfold scalar; lia|]. apply Forall_forall. apply forallb_forall. vm_compute. reflexivity. }
  assert (~ In 0%Z sample_text) as Hz.
  { intros H. assert (forallb (fun z => negb (z =? 0)%Z) sample_text = true) as F by (vm_compute; reflexivity). rewrite forallb_forall in F. specialize (F _ H). discriminate. }
  split; [exact Hs|]. split; [exact Hz|].
  assert (match parse (fun _ => true) (utf8s sample_text) with Doc d => List.length (doc_defs d) = 10 | _ => False end) as E by (vm_compute; reflexivity).
  destruct (parse (fun _ => true) (utf8s sample_text)) as [d| | |] eqn:P; try contradiction. exists d. split; [reflexivity|]. split; [exact E|]. exact (C55_text _ _ _ Hs Hz P).
Qed.
