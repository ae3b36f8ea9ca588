(** * PropFlaws: theorem C66 (what is said of a schema tells what is wrong with it). *)
From Verif Require Import Base AST Context SchemaSpec Messages Flaws.
From Verif Require Import LexSpec Parser Walker WalkSpec Rules RuleSpec SchemaBuild WellFormed GoodNodes MessageProofs NameTokens PropWell.
From Verif Require Import PropRules PropSdl PropBuild Utils SchemaValidate ValidateProofs SchemaProofs PropSchema Samples.

(** ** The errors are the flaws *)
Lemma keyed_in s d k : plain_schema s -> type_in s k d -> mget (t_name d) (sc_types s) = Some d /\ t_kind d = k.
Proof. intros P (n & E & K). rewrite (ps_key s P n d E). auto. Qed.
Lemma fielded_in s d : plain_schema s -> with_fields_in s d -> fielded s (t_name d) d.
Proof. intros P [H|H]; apply (keyed_in s d _ P) in H; destruct H as [E K]; split; auto. Qed.
Lemma in_fielded s n d : plain_schema s -> fielded s n d -> with_fields_in s d /\ t_name d = n.
Proof. intros P [E [K|K]]; (split; [|apply (ps_key s P n d E)]); [left|right]; exists n; auto. Qed.
Lemma in_object s n d : plain_schema s -> object_type s n d -> type_in s KObject d /\ t_name d = n.
Proof. intros P [E K]. split; [exists n; auto|apply (ps_key s P n d E)]. Qed.
Lemma provide_implements s d i f : plain_schema s -> must_provide s d i f -> implements s (t_name d) (t_name i) d f.
Proof.
  intros P (O & (t & Ht & Et) & K & Hf). split; [apply (keyed_in s d _ P O)|]. pose proof (ps_key s P _ _ Et) as N. rewrite N. split; [apply in_map, Ht|]. exists i. auto.
Qed.
Lemma implements_provide s d t i f : plain_schema s -> implements s t i d f -> t_name d = t /\ exists b, t_name b = i /\ must_provide s d b f.
Proof.
  intros P (O & Hi & b & Eb & K & Hf). split; [apply (in_object s t d P O)|]. exists b. split; [apply (ps_key s P _ _ Eb)|].
  split; [apply (in_object s t d P O)|]. split; [|auto]. apply in_map_iff in Hi. destruct Hi as (x & <- & Hx). exists x. auto.
Qed.
Lemma violations_are_flaws s : plain_schema s -> forall m, (exists e, violation s e /\ message e = m) <-> exists x, has_flaw s x /\ text_of x = m.
Proof.
  intros P m. split.
  - intros (e & V & <-). destruct V as [n e C [[R ->]|(R & N & ->)]|V|d (t & E & M) K|d (t & E & M) K|d (t & E & M) K|n d a M R|d F E|d f F Hf K|d f a F Hf R|d f a F Hf Ha K|d t O Ht K|d n O K R|d i f M N|d i f g M N C].
    + exists (FReserved n). split; [split; assumption|]. unfold text_of. cbn [message]. unfold q. rewrite <- !app_assoc. reflexivity.
    + exists (FInvalid n). split; [repeat split; assumption|]. unfold text_of. cbn [message]. unfold q. rewrite <- !app_assoc. reflexivity.
    + exists FNoQuery. split; [|reflexivity]. intros t E. cbn in E. destruct (mget (name_of t) (sc_types s)) as [d|] eqn:M; [|reflexivity]. destruct (V d). exists t. auto.
    + exists (FRoot Query). split; [|reflexivity]. exists t, (t_kind d). unfold kind_of. rewrite M. auto.
    + exists (FRoot Mutation). split; [|reflexivity]. exists t, (t_kind d). unfold kind_of. rewrite M. auto.
    + exists (FRoot Subscription). split; [|reflexivity]. exists t, (t_kind d). unfold kind_of. rewrite M. auto.
    + exists (FDirectiveArg n a). split; [exists d; auto|reflexivity].
    + exists (FNoFields (t_name d)). split; [exists d; split; [apply fielded_in; assumption|exact E]|reflexivity].
    + exists (FOutput (t_name d) (fd_name f)). split; [exists d, f; split; [apply fielded_in; assumption|auto]|reflexivity].
    + exists (FFieldArg (t_name d) (fd_name f) a). split; [exists d, f; split; [apply fielded_in; assumption|auto]|reflexivity].
    + exists (FInput (t_name d) (fd_name f) (i_name a)). split; [exists d, f, a; split; [apply fielded_in; assumption|auto]|reflexivity].
    + exists (FNotInterface (t_name d) (name_of t)). split; [exists d; split; [apply keyed_in; assumption|split; [apply in_map, Ht|exact K]]|reflexivity].
    + exists (FTwice (t_name d) n). split; [exists d; split; [apply keyed_in; assumption|auto]|reflexivity].
    + exists (FMissing (t_name i) (fd_name f) (t_name d)). split; [|reflexivity]. exists d, f. split; [apply provide_implements; assumption|]. split; [reflexivity|].
      intros H. apply in_map_iff in H. destruct H as (g & E & Hg). apply (N g Hg E).
    + exists (FFieldType (t_name i) (fd_name f) (fd_type f) (t_name d) (fd_type g)). assert (Eg : fd_name g = fd_name f) by (destruct N as (? & ? & ? & ? & ?); assumption). split.
      * exists d, f, g. split; [apply provide_implements; assumption|auto].
      * cbn [message text_of]. rewrite Eg. reflexivity.
  - intros (x & H & <-). destruct x as [n|n| |o|n a|t|t f|t f a|t f a|t i|t i|i f t|i f want t have]; cbn [has_flaw] in H.
    + exists (EReserved n). split; [eapply vi_name; [apply H|left; split; [apply H|reflexivity]]|]. unfold text_of. cbn [message]. unfold q. rewrite <- !app_assoc. reflexivity.
    + exists (EInvalidName n). split; [eapply vi_name; [apply H|right; split; [apply H|split; [apply H|reflexivity]]]|]. unfold text_of. cbn [message]. unfold q. rewrite <- !app_assoc. reflexivity.
    + exists (EMsg (B "Query root type must be provided.")). split; [apply vi_query_missing|reflexivity]. intros d (t & E & M). rewrite (H t E) in M. discriminate.
    + destruct H as (t & k & E & K & N). unfold kind_of in K. destruct (mget (name_of t) (sc_types s)) as [d|] eqn:M; [|discriminate]. injection K as <-.
      assert (R : SchemaSpec.root s (operation_root s o) d) by (exists t; auto). destruct o; cbn [operation_root] in R; eexists.
      * split; [apply (vi_query s d R N)|reflexivity].
      * split; [apply (vi_mutation s d R N)|reflexivity].
      * split; [apply (vi_subscription s d R N)|reflexivity].
    + destruct H as (d & M & R). eexists. split; [eapply vi_directive_arg; eassumption|reflexivity].
    + destruct H as (d & F & E). destruct (in_fielded s t d P F) as [F' <-]. eexists. split; [apply (vi_no_fields s d F' E)|reflexivity].
    + destruct H as (d & x & F & Hx & <- & K). destruct (in_fielded s t d P F) as [F' <-]. eexists. split; [apply (vi_output s d x F' Hx K)|reflexivity].
    + destruct H as (d & x & F & Hx & <- & K). destruct (in_fielded s t d P F) as [F' <-]. eexists. split; [apply (vi_field_arg s d x a F' Hx K)|reflexivity].
    + destruct H as (d & x & y & F & Hx & <- & Hy & <- & K). destruct (in_fielded s t d P F) as [F' <-]. eexists. split; [apply (vi_input s d x y F' Hx Hy K)|reflexivity].
    + destruct H as (d & O & Hi & K). destruct (in_object s t d P O) as [O' <-]. apply in_map_iff in Hi. destruct Hi as (x & <- & Hx). eexists. split; [apply (vi_not_interface s d x O' Hx K)|reflexivity].
    + destruct H as (d & O & R & K). destruct (in_object s t d P O) as [O' <-]. eexists. split; [apply (vi_interface_twice s d i O' K R)|reflexivity].
    + destruct H as (d & x & I & <- & N). destruct (implements_provide s d t i x P I) as (<- & b & <- & M). eexists. split; [apply (vi_field_missing s d b x M)|reflexivity].
      intros g Hg E. apply N. rewrite <- E. apply in_map, Hg.
    + destruct H as (d & x & g & I & <- & <- & F & <- & C). destruct (implements_provide s d t i x P I) as (<- & b & <- & M). eexists. split; [apply (vi_field_type s d b x g M F C)|].
      assert (Eg : fd_name g = fd_name x) by (destruct F as (? & ? & ? & ? & ?); assumption). cbn [message text_of]. rewrite Eg. reflexivity.
Qed.
Theorem C66_messages_exact : forall peq fuel od ot oi s es, (forall a b, peq a b = true -> a = b) ->
  visits_map od (sc_dirs s) -> visits_map ot (sc_types s) -> visits_map oi (sc_types s) -> kind_of s [] = None -> whole_types s -> plain_schema s ->
  validate_schema peq fuel od ot oi s [] = GOk es -> forall m, In m (map message es) <-> exists x, has_flaw s x /\ text_of x = m.
Proof.
  intros peq fuel od ot oi s es Pe Od Ot Oi N W P E m. rewrite <- (violations_are_flaws s P m), in_map_iff.
  pose proof (C36_schema_errors_exact peq fuel od ot oi s [] es Pe Od Ot Oi N W E) as X. split; intros (e & H1 & H2); exists e.
  - split; [|exact H1]. destruct (proj1 (X e) H2) as [V|[]]. exact V.
  - split; [exact H2|]. apply X. left. exact H1.
Qed.
Print Assumptions C66_messages_exact.

(** ** The texts can be told apart *)
Lemma stop (c c' : ascii) : forall a a' b b' : bytes, ~ In c a' -> ~ In c' a -> a ++ c :: b = a' ++ c' :: b' -> a = a' /\ c = c' /\ b = b'.
Proof.
  induction a as [|x a IH]; intros [|y a'] b b' H H' E; cbn [app] in E.
  - injection E as -> ->. auto.
  - exfalso. apply H. injection E as -> _. left. reflexivity.
  - exfalso. apply H'. injection E as -> _. left. reflexivity.
  - injection E as -> E. destruct (IH a' b b') as (-> & -> & ->); [intros X; apply H; right; exact X|intros X; apply H'; right; exact X|exact E|auto].
Qed.
Lemma plain_stop (c c' : ascii) (a a' b b' : bytes) : In c punctuation -> In c' punctuation -> plain a -> plain a' -> a ++ c :: b = a' ++ c' :: b' -> a = a' /\ c = c' /\ b = b'.
Proof. intros Hc Hc' P P'. apply stop; [apply P', Hc|apply P, Hc']. Qed.
(** Read with what follows a type, which is its end, a space or a bracket. *)
Definition follows (k : bytes) : Prop := k = [] \/ exists r, k = " "%char :: r \/ k = "]"%char :: r.
Lemma name_end n n' k k' : plain n -> plain n' -> follows k -> follows k' ->
  forall nn nn' : bool, n ++ (if nn then B "!" else []) ++ k = n' ++ (if nn' then B "!" else []) ++ k' -> n = n' /\ nn = nn' /\ k = k'.
Proof.
  intros P P' F F' nn nn' E.
  assert (X : forall (m : bool) j, follows j -> (if m then B "!" else []) ++ j = [] /\ m = false /\ j = [] \/ exists c r, (if m then B "!" else []) ++ j = c :: r /\ In c punctuation).
  { intros m j Fj. destruct m; [right; exists "!"%char, j; split; [reflexivity|right; left; reflexivity]|]. destruct Fj as [->|(r & [->| ->])]; [left; auto|right; exists " "%char, r; split; [reflexivity|left; reflexivity]|].
    right. exists "]"%char, r. split; [reflexivity|]. repeat (first [left; reflexivity|right]). }
  assert (Y : n = n' /\ (if nn then B "!" else []) ++ k = (if nn' then B "!" else []) ++ k').
  { destruct (X nn k F) as [(E1 & _)|(c & r & E1 & Hc)], (X nn' k' F') as [(E2 & _)|(c' & r' & E2 & Hc')]; rewrite E1, E2 in *.
    - rewrite !app_nil_r in E. auto.
    - exfalso. rewrite app_nil_r in E. apply (P c' Hc'). rewrite E. apply in_elt.
    - exfalso. rewrite app_nil_r in E. apply (P' c Hc). rewrite <- E. apply in_elt.
    - apply plain_stop in E; try assumption. destruct E as (-> & -> & ->). auto. }
  destruct Y as [-> E2]. split; [reflexivity|]. destruct nn, nn'; cbn [app] in E2.
  - injection E2 as ->. auto.
  - exfalso. destruct F' as [->|(r & [->| ->])]; discriminate.
  - exfalso. destruct F as [->|(r & [->| ->])]; discriminate.
  - auto.
Qed.
Lemma bang_end k k' : follows k -> follows k' -> forall nn nn' : bool, (if nn then B "!" else []) ++ k = (if nn' then B "!" else []) ++ k' -> nn = nn' /\ k = k'.
Proof.
  intros F F' nn nn' E. apply (name_end [] [] k k') in E; try assumption; [tauto|intros b _ []|intros b _ []].
Qed.
Lemma type_read t : forall t' k k', plain_type t -> plain_type t' -> whole t -> whole t' -> follows k -> follows k' -> ty_string t ++ k = ty_string t' ++ k' -> t = t' /\ k = k'.
Proof.
  assert (L : forall t nn k n' nn' k', plain n' -> follows k' -> (B "[" ++ ty_string t ++ B "]" ++ (if nn : bool then B "!" else [])) ++ k = (n' ++ (if nn' : bool then B "!" else [])) ++ k' -> False).
  { clear. intros t nn k n' nn' k' P F E. rewrite <- !app_assoc in E. destruct n' as [|c n'].
    - destruct nn'; [discriminate|]. cbn [app] in E. destruct F as [->|(r & [->| ->])]; discriminate.
    - injection E as E _. apply (P c); [|left; reflexivity]. rewrite <- E. repeat (first [left; reflexivity|right]). }
  induction t as [n nn|t IH nn|]; intros [n' nn'|t' nn'|] k k' P P' W W' F F' E; try (exfalso; apply W; reflexivity); try (exfalso; apply W'; reflexivity); cbn [ty_string plain_type] in *.
  - rewrite <- !app_assoc in E. apply name_end in E; try assumption. destruct E as (-> & -> & ->). auto.
  - exfalso. symmetry in E. exact (L _ _ _ _ _ _ P F E).
  - exfalso. exact (L _ _ _ _ _ _ P' F' E).
  - rewrite <- !app_assoc in E. apply app_inv_head in E. apply (IH t') in E; try assumption; [|right; eexists; right; reflexivity|right; eexists; right; reflexivity].
    destruct E as [-> E]. apply app_inv_head in E. apply bang_end in E; try assumption. destruct E as [-> ->]. auto.
Qed.
(** The names and types of a flaw *)
Definition plain_flaw (x : flaw) : Prop :=
  match x with
  | FNoQuery | FRoot _ => True
  | FReserved n | FInvalid n | FNoFields n => plain n
  | FDirectiveArg a b | FOutput a b | FNotInterface a b | FTwice a b => plain a /\ plain b
  | FFieldArg a b c | FInput a b c | FMissing a b c => plain a /\ plain b /\ plain c
  | FFieldType a b t c t' => plain a /\ plain b /\ plain c /\ (plain_type t /\ whole t) /\ (plain_type t' /\ whole t')
  end.
Lemma sp : In " "%char punctuation. Proof. left. reflexivity. Qed.
Lemma dot : In "."%char punctuation. Proof. repeat (first [left; reflexivity|right]). Qed.
Lemma par : In "("%char punctuation. Proof. repeat (first [left; reflexivity|right]). Qed.
Lemma col : In ":"%char punctuation. Proof. repeat (first [left; reflexivity|right]). Qed.
Lemma quo : In """"%char punctuation. Proof. repeat (first [left; reflexivity|right]). Qed.
Ltac step := match goal with
  | E : ?p ++ _ = ?p ++ _ |- _ => apply same_app in E
  | E : ?n ++ B (String ?c ?r) ++ ?x = ?n' ++ B (String ?c' ?r') ++ ?x' |- _ =>
      change (n ++ c :: (B r ++ x) = n' ++ c' :: (B r' ++ x')) in E; apply plain_stop in E; [|first [exact sp|exact dot|exact par|exact col|exact quo]|first [exact sp|exact dot|exact par|exact col|exact quo]|tauto|tauto]; destruct E as (-> & ? & E)
  | E : ?n ++ B (String ?c ?r) = ?n' ++ B (String ?c' ?r') ++ ?x' |- _ =>
      change (n ++ c :: B r = n' ++ c' :: (B r' ++ x')) in E; apply plain_stop in E; [|first [exact sp|exact dot|exact par|exact col|exact quo]|first [exact sp|exact dot|exact par|exact col|exact quo]|tauto|tauto]; destruct E as (-> & ? & E)
  | E : ?n ++ B (String ?c ?r) ++ ?x = ?n' ++ B (String ?c' ?r') |- _ =>
      change (n ++ c :: (B r ++ x) = n' ++ c' :: B r') in E; apply plain_stop in E; [|first [exact sp|exact dot|exact par|exact col|exact quo]|first [exact sp|exact dot|exact par|exact col|exact quo]|tauto|tauto]; destruct E as (-> & ? & E)
  | E : ?n ++ B (String ?c ?r) = ?n' ++ B (String ?c' ?r') |- _ =>
      change (n ++ c :: B r = n' ++ c' :: B r') in E; apply plain_stop in E; [|first [exact sp|exact dot|exact par|exact col|exact quo]|first [exact sp|exact dot|exact par|exact col|exact quo]|tauto|tauto]; destruct E as (-> & ? & E)
  end; try discriminate; try reflexivity.
Lemma text_inj x x' : plain_flaw x -> plain_flaw x' -> text_of x = text_of x' -> x = x'.
Proof.
  destruct x as [n|n| |[]|n a|t|t f|t f a|t f a|t i|t i|i f t|i f want t have], x' as [n'|n'| |[]|n' a'|t'|t' f'|t' f' a'|t' f' a'|t' i'|t' i'|i' f' t'|i' f' want' t' have'];
    intros P P' E; cbn [plain_flaw] in P, P'; try reflexivity; cbn [text_of] in E; try discriminate E.
  all: repeat step.
  all: try (subst; reflexivity).
  destruct P as (Pi & Pf & Pt & (Pw & Ww) & Ph & Wh), P' as (_ & _ & Pt' & (Pw' & Ww') & Ph' & Wh').
  apply type_read in E; try assumption; [|right; eexists; left; reflexivity|right; eexists; left; reflexivity]. destruct E as [-> E]. do 5 step.
  assert (E' : ty_string have ++ [] = ty_string have' ++ []) by (rewrite !app_nil_r; exact E).
  apply type_read in E'; try assumption; [|left; reflexivity|left; reflexivity]. destruct E' as [-> _]. reflexivity.
Qed.
Lemma repeated_In {X} (x : X) l : repeated x l -> In x l.
Proof. intros (a & b & c & ->). apply in_elt. Qed.
Lemma flaw_plain s x : plain_schema s -> whole_types s -> has_flaw s x -> plain_flaw x.
Proof.
  intros P W. 
  assert (C : forall n, checked_name s n -> plain n).
  { intros n [m d E|m d a E Ha|m d E _|d f F Hf|d f a F Hf Ha].
    - apply (proj1 (ps_dir s P m d E)).
    - apply (ps_dir s P m d E), Ha.
    - apply (ps_type s P m d E).
    - destruct (fielded_in s d P F) as [E _]. apply (proj1 (ps_field s P _ d f E Hf)).
    - destruct (fielded_in s d P F) as [E _]. apply (ps_field s P _ d f E Hf), Ha. }
  assert (T : forall t d, fielded s t d -> plain t) by (intros t d [E _]; apply (ps_type s P t d E)).
  assert (F : forall t d x, fielded s t d -> In x (t_fields d) -> plain (fd_name x) /\ plain_type (fd_type x) /\ forall a, In a (map i_name (fd_args x)) -> plain a).
  { intros t d y [E _] Hy. destruct (ps_field s P t d y E Hy) as (P1 & P2 & P3). split; [exact P1|]. split; [exact P2|]. intros a Ha. apply in_map_iff in Ha. destruct Ha as (z & <- & Hz). apply P3, Hz. }
  assert (I : forall t d i, object_type s t d -> In i (map name_of (t_impl d)) -> plain t /\ plain i).
  { intros t d i [E _] Hi. split; [apply (ps_type s P t d E)|]. apply in_map_iff in Hi. destruct Hi as (z & <- & Hz). apply (ps_impl s P t d z E Hz). }
  assert (O : forall t d, object_type s t d -> fielded s t d) by (intros t d [E K]; split; auto).
  destruct x as [n|n| |o|n a|t|t f|t f a|t f a|t i|t i|i f t|i f want t have]; cbn [has_flaw plain_flaw]; intros H; try exact Logic.I.
  - apply C, H.
  - apply C, H.
  - destruct H as (d & E & R). split; [apply (proj1 (ps_dir s P n d E))|]. apply repeated_In, in_map_iff in R. destruct R as (y & <- & Hy). apply (ps_dir s P n d E), Hy.
  - destruct H as (d & Hd & _). apply (T t d Hd).
  - destruct H as (d & x & Hd & Hx & <- & _). split; [apply (T t d Hd)|apply (proj1 (F t d x Hd Hx))].
  - destruct H as (d & x & Hd & Hx & <- & R). split; [apply (T t d Hd)|]. split; [apply (proj1 (F t d x Hd Hx))|]. apply (proj2 (proj2 (F t d x Hd Hx))), repeated_In, R.
  - destruct H as (d & x & y & Hd & Hx & <- & Hy & <- & _). split; [apply (T t d Hd)|]. split; [apply (proj1 (F t d x Hd Hx))|]. apply (proj2 (proj2 (F t d x Hd Hx))), in_map, Hy.
  - destruct H as (d & Hd & Hi & _). apply (I t d i Hd Hi).
  - destruct H as (d & Hd & R & _). apply (I t d i Hd), repeated_In, R.
  - destruct H as (d & x & (Hd & Hi & b & Eb & Kb & Hx) & <- & _). destruct (I t d i Hd Hi) as [Pt Pi]. split; [exact Pi|]. split; [|exact Pt]. apply (proj1 (F i b x (conj Eb (or_intror Kb)) Hx)).
  - destruct H as (d & x & g & (Hd & Hi & b & Eb & Kb & Hx) & <- & <- & N & <- & _). destruct (I t d i Hd Hi) as [Pt Pi]. assert (Fb : fielded s i b) by (split; auto).
    destruct (F i b x Fb Hx) as (Pf & Pw & _). assert (Hg : In g (t_fields d)) by (destruct N as (u & v & -> & _); apply in_elt).
    destruct (F t d g (O t d Hd) Hg) as (_ & Ph & _). repeat (split; [assumption|]). split; (split; [assumption|]).
    + apply (W b x); [apply (in_fielded s i b P Fb)|exact Hx].
    + apply (W d g); [apply (in_fielded s t d P (O t d Hd))|exact Hg].
Qed.
Theorem C66_told_apart : forall s s' x x', plain_schema s -> plain_schema s' -> whole_types s -> whole_types s' ->
  has_flaw s x -> has_flaw s' x' -> text_of x = text_of x' -> x = x'.
Proof. intros s s' x x' P P' W W' H H'. apply text_inj; [apply (flaw_plain s x P W H)|apply (flaw_plain s' x' P' W' H')]. Qed.
Print Assumptions C66_told_apart.

(** ** Schemas made from source text are such *)
Lemma proper_plain n : proper_name n -> plain n.
Proof.
  intros (c & r & -> & Hc & Hr). assert (H : Forall (fun b => letter (zb b) \/ digit (zb b)) (c :: r)) by (constructor; auto). intros b Hb Hi. rewrite Forall_forall in H. specialize (H b Hi).
  unfold letter, digit in H. repeat (destruct Hb as [<-|Hb]; [vm_compute in H; intuition congruence|]). destruct Hb.
Qed.
Lemma plain_check n : forallb (fun b => negb (existsb (Ascii.eqb b) punctuation)) n = true -> plain n.
Proof.
  intros H b Hb Hi. rewrite forallb_forall in H. specialize (H b Hi). apply negb_true_iff in H. assert (existsb (Ascii.eqb b) punctuation = true); [|congruence].
  apply existsb_exists. exists b. split; [exact Hb|apply Ascii.eqb_refl].
Qed.
Lemma name_plain i n : name_in i n -> plain n.
Proof.
  intros (x & r & _ & [H|(p & b & -> & H & Hb)]); [apply proper_plain, H|]. apply proper_plain in H. intros c Hc Hi. apply in_app_or in Hi. destruct Hi as [Hi|[<-|[]]]; [exact (H c Hc Hi)|].
  repeat (destruct Hc as [<-|Hc]; [vm_compute in Hb; intuition congruence|]). destruct Hc.
Qed.
Lemma type_plain i t : wf_type (name_in i) t -> plain_type t.
Proof. induction t; cbn [wf_type plain_type]; auto. apply name_plain. Qed.
Lemma plus_In {X} (x : X) b l : In x (plus b l) -> In x b \/ exists c, In c l /\ In x c.
Proof. destruct b; [intros []|]. cbn [plus]. intros H. apply in_app_or in H. destruct H as [H|H]; [auto|]. apply in_concat in H. auto. Qed.
Lemma built_plain fok i d ord : parse fok i = Doc d -> visits d ord -> targets_defined d None -> plain_schema (built d None ord).
Proof.
  intros Hp V T. destruct (C55_any_input fok i d Hp) as [_ WF]. rewrite Forall_forall in WF.
  assert (TD : forall t, In t (type_definitions d) \/ In t (type_extensions d) -> wf_typedef (name_in i) (fun l => fok l = true) t).
  { intros t [H|H]; apply in_flat_map in H; destruct H as (x & Hx & H); specialize (WF x Hx); destruct (def_body x); try destruct H as [<-|[]]; try destruct H; [exact WF|apply WF]. }
  assert (DD : forall t, In t (directive_definitions d) -> wf_dirdef (name_in i) (fun l => fok l = true) t).
  { intros t H; apply in_flat_map in H; destruct H as (x & Hx & H); specialize (WF x Hx); destruct (def_body x); try destruct H as [<-|[]]; try destruct H. exact WF. }
  assert (K : forall n t, mget n (sc_types (built d None ord)) = Some t -> t_name t = n /\ plain n /\
            (In t [scalar_type (B "ID"); scalar_type (B "String")] \/ exists t0, In t0 (type_definitions d) /\ t = merged t0 (extensions_of d n))).
  { intros n t E. rewrite (C34_types d ord V T) in E. destruct (defined_type d n) as [t0|] eqn:E0.
    - apply find_some in E0. destruct E0 as [H0 Hn]. injection E as <-. destruct (bytes_dec n (t_name t0)) as [->|]; [|discriminate]. split; [reflexivity|]. split; [|right; eauto].
      apply (name_plain i). apply (TD t0). auto.
    - unfold builtin_type in E. cbn [mget] in E. destruct (beqb n (B "ID")) eqn:E1; [apply beqb_true in E1; injection E as <-; subst n; split; [reflexivity|]; split; [apply plain_check; vm_compute; reflexivity|left; left; reflexivity]|].
      destruct (beqb n (B "String")) eqn:E2; [|discriminate]. apply beqb_true in E2; injection E as <-; subst n; split; [reflexivity|]; split; [apply plain_check; vm_compute; reflexivity|left; right; left; reflexivity]. }
  assert (XT : forall n x ks, In x (of_kinds ks (extensions_of d n)) -> In x (type_extensions d)) by (intros n x ks H; apply filter_In in H; destruct H as [H _]; apply filter_In in H; apply H).
  constructor.
  - intros n t E. apply (K n t E).
  - intros n t E. apply (K n t E).
  - intros n t u E Hu. destruct (K n t E) as (_ & _ & [H|(t0 & H0 & ->)]); [destruct H as [<-|[<-|[]]]; destruct Hu|]. cbn [merged t_impl] in Hu.
    assert (Wu : wf_type (name_in i) u).
    { apply plus_In in Hu. destruct Hu as [Hu|(c & Hc & Hu)].
      - destruct (TD t0 (or_introl H0)) as (_ & _ & F & _). rewrite Forall_forall in F. apply F, Hu.
      - apply in_map_iff in Hc. destruct Hc as (y & <- & Hy). destruct (TD y (or_intror (XT _ _ _ Hy))) as (_ & _ & F & _). rewrite Forall_forall in F. apply F, Hu. }
    destruct u; cbn [name_of]; [apply (name_plain i), Wu|intros b _ []|intros b _ []].
  - intros n t f E Hf. destruct (K n t E) as (_ & _ & [H|(t0 & H0 & ->)]); [destruct H as [<-|[<-|[]]]; destruct Hf|]. cbn [merged t_fields] in Hf.
    assert (Wf : wf_field (name_in i) (fun l => fok l = true) f).
    { apply plus_In in Hf. destruct Hf as [Hf|(c & Hc & Hf)].
      - destruct (TD t0 (or_introl H0)) as (_ & _ & _ & F & _). rewrite Forall_forall in F. apply F, Hf.
      - apply in_map_iff in Hc. destruct Hc as (y & <- & Hy). destruct (TD y (or_intror (XT _ _ _ Hy))) as (_ & _ & _ & F & _). rewrite Forall_forall in F. apply F, Hf. }
    destruct Wf as (W1 & W2 & W3 & _). split; [apply (name_plain i), W1|]. split; [apply (type_plain i), W3|]. intros a Ha. rewrite Forall_forall in W2. apply (name_plain i), (W2 a Ha).
  - intros n t E. rewrite (C34_directives d ord V T) in E. destruct (defined_directive d n) as [t0|] eqn:E0.
    + apply find_some in E0. destruct E0 as [H0 Hn]. injection E as <-. destruct (bytes_dec n (dd_name t0)) as [->|]; [|discriminate]. destruct (DD t0 H0) as (W1 & W2 & _). split; [apply (name_plain i), W1|].
      intros a Ha. rewrite Forall_forall in W2. apply (name_plain i), (W2 a Ha).
    + unfold builtin_directive in E. cbn [mget] in E.
      repeat match type of E with (if ?c then _ else _) = _ => destruct c eqn:?Q end; try discriminate E; injection E as <-;
        match goal with Q : beqb n _ = true |- _ => apply beqb_true in Q; subst n end; (split; [apply plain_check; vm_compute; reflexivity|]);
        intros a Ha; repeat (destruct Ha as [<-|Ha]; [apply plain_check; vm_compute; reflexivity|]); destruct Ha.
Qed.
Theorem C66_parsed : forall fok i d ord, parse fok i = Doc d -> visits d ord -> targets_defined d None -> plain_schema (built d None ord).
Proof. exact built_plain. Qed.
Print Assumptions C66_parsed.
(** All together: a message about a schema made from source text stands for exactly one flaw, and the schema has it. *)
Theorem C66_one_flaw : forall fok i d ord peq fuel od ot oi es, let s := built d None ord in
  parse fok i = Doc d -> visits d ord -> targets_defined d None -> (forall a b, peq a b = true -> a = b) ->
  visits_map od (sc_dirs s) -> visits_map ot (sc_types s) -> visits_map oi (sc_types s) -> whole_types s ->
  validate_schema peq fuel od ot oi s [] = GOk es ->
  (forall m, In m (map message es) -> exists! x, has_flaw s x /\ text_of x = m) /\ (forall x, has_flaw s x -> In (text_of x) (map message es)).
Proof.
  intros fok i d ord peq fuel od ot oi es s Hp V T Pe Od Ot Oi W E. pose proof (built_plain fok i d ord Hp V T) as P. fold s in P.
  assert (N : kind_of s [] = None).
  { unfold kind_of. destruct (mget [] (sc_types s)) as [t|] eqn:Et; [|reflexivity]. exfalso. unfold s in Et. rewrite (C34_types d ord V T) in Et. destruct (defined_type d []) as [t0|] eqn:E0; [|discriminate].
    apply find_some in E0. destruct E0 as [H0 Hn]. destruct (bytes_dec [] (t_name t0)) as [Q|]; [|discriminate]. destruct (C55_any_input fok i d Hp) as [_ WF]. rewrite Forall_forall in WF.
    apply in_flat_map in H0; destruct H0 as (x & Hx & H0); specialize (WF x Hx); destruct (def_body x) as [| | | |u| |]; try destruct H0 as [->|[]]; try destruct H0.
    destruct WF as ((a & b & _ & [(c & r & Z & _)|(p & c & Z & _)]) & _); rewrite <- Q in Z; [discriminate|]. destruct p; discriminate. }
  pose proof (C66_messages_exact peq fuel od ot oi s es Pe Od Ot Oi N W P E) as M. split.
  - intros m Hm. destruct (proj1 (M m) Hm) as (x & H & Ex). exists x. split; [auto|]. intros y [Hy Ey]. apply (C66_told_apart s s); try assumption. congruence.
  - intros x H. apply M. exists x. auto.
Qed.
Print Assumptions C66_one_flaw.
(** A schema made by hand can be ambiguous: the field [B.c] of the type [A], or the field [c] of the type [A.B]? *)
Definition hand (t f : string) : schema :=
  mkSchema None None None None [] [(B t, mkTd KObject [] (B t) [] [] [mkFd [] (B f) [] (TNamed (B "X") false) []] [] [] [])].
Theorem C66_handmade_refuted : exists s s' x x', has_flaw s x /\ has_flaw s' x' /\ text_of x = text_of x' /\ x <> x'.
Proof.
  exists (hand "A" "B.c"), (hand "A.B" "c"), (FOutput (B "A") (B "B.c")), (FOutput (B "A.B") (B "c")). split; [|split; [|split; [vm_compute; reflexivity|intros H; injection H; discriminate]]].
  - exists (mkTd KObject [] (B "A") [] [] [mkFd [] (B "B.c") [] (TNamed (B "X") false) []] [] [] []), (mkFd [] (B "B.c") [] (TNamed (B "X") false) []).
    split; [split; [reflexivity|left; reflexivity]|]. split; [left; reflexivity|]. split; [reflexivity|]. intros (n & k & En & Ek & _). injection En as <-. discriminate Ek.
  - exists (mkTd KObject [] (B "A.B") [] [] [mkFd [] (B "c") [] (TNamed (B "X") false) []] [] [] []), (mkFd [] (B "c") [] (TNamed (B "X") false) []).
    split; [split; [reflexivity|left; reflexivity]|]. split; [left; reflexivity|]. split; [reflexivity|]. intros (n & k & En & Ek & _). injection En as <-. discriminate Ek.
Qed.
Print Assumptions C66_handmade_refuted.
(** A document with a flaw of most kinds (the example of C36), and what its messages stand for. *)
Definition flawed_text : string := "schema {query:E mutation:E} interface Node {id:ID! n:Node} interface Empty type __User implements Node & Node & E & Empty {id:ID x(a:ID a:Node):In} enum E {A} input In {x:ID}".
Definition flawed : document := src flawed_text.
Lemma no_exts_targets d : type_extensions d = [] -> targets_defined d None.
Proof. intros E x H. rewrite E in H. destruct H. Qed.
Lemma no_exts_visits d : type_extensions d = [] -> visits d [].
Proof. intros E. split; [constructor|]. intros n xs. unfold extensions_of. rewrite E. cbn. split; [intros []|intros [-> H]; destruct H; reflexivity]. Qed.
Example C66_nonvacuous : parse (fun _ => true) (B flawed_text) = Doc flawed /\ targets_defined flawed None /\ visits flawed [] /\ whole_types (built flawed None []) /\
  exists es, validate_schema noptr 20 (rev (sc_dirs (built flawed None []))) (rev (sc_types (built flawed None []))) (sc_types (built flawed None [])) (built flawed None []) [] = GOk es /\
  map message (rev es) =
    map text_of [FRoot Query; FRoot Mutation; FReserved (B "__User"); FOutput (B "__User") (B "x"); FFieldArg (B "__User") (B "x") (B "a"); FInput (B "__User") (B "x") (B "a");
       FFieldType (B "Node") (B "id") (TNamed (B "ID") true) (B "__User") (TNamed (B "ID") false); FMissing (B "Node") (B "n") (B "__User"); FTwice (B "__User") (B "Node"); FNotInterface (B "__User") (B "E"); FNoFields (B "Empty")].
Proof.
  split; [vm_compute; reflexivity|]. split; [apply no_exts_targets; vm_compute; reflexivity|]. split; [apply no_exts_visits; vm_compute; reflexivity|]. split; [apply whole_check; vm_compute; reflexivity|].
  eexists. split; vm_compute; reflexivity.
Qed.
