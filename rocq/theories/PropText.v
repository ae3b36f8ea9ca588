(** * PropText: C50, what the entry points return does not depend on how the source is laid out; C20 for parsed documents. *)
From Verif Require Import Base AST Utf8 Lexer LexSpec LexProps Parser Grammar Walker WalkSpec Context Rules RuleProofs RuleSpec QueryProofs SchemaBuild Utils SchemaValidate Dumper DumpSpec PropLex PropParse PropDump PropRules Top Positions Samples.

(** ** C50 *)
(** Two calls end in the same way: the messages of parse errors may differ (they cite positions), validation errors may not. *)
Definition same_ending {A} (R : A -> A -> Prop) (x y : ending A) : Prop :=
  match x, y with
  | Refused _, Refused _ | Panicked, Panicked | Never, Never => True
  | Reported es, Reported es' => es = es'
  | Returned a, Returned b => R a b
  | _, _ => False
  end.
Definition same_document (d d' : document) : Prop := same_outcome (Doc d) (Doc d').

Lemma same_blank d d' : same_document d d' -> blank d = blank d'.
Proof.
  intros (H & H1 & H2 & H3 & H4 & H5 & H6 & H7). unfold blank. rewrite H1, H2, H3, H4, H5, H6, H7. f_equal. unfold blank_def.
  rewrite <- (map_map def_body (fun b => mkDef 0 0 b)), H, map_map. reflexivity.
Qed.
Lemma bl_errors c c' : bl c = bl c' -> c_errors c = c_errors c'. Proof. intros E. exact (f_equal c_errors E). Qed.
Lemma bl_crash c c' : bl c = bl c' -> c_crash c = c_crash c'. Proof. intros E. exact (f_equal c_crash E). Qed.
(** Validation reads no positions: the same errors in the same order. *)
Theorem C50_validation : forall d d' s, same_document d d' -> c_errors (validate d s) = c_errors (validate d' s) /\ c_errors (validate_sdl d s) = c_errors (validate_sdl d' s).
Proof.
  intros d d' s H. apply same_blank in H. split; apply bl_errors; [rewrite <- !validate_blank, H|rewrite <- !validate_sdl_blank, H]; reflexivity.
Qed.
Print Assumptions C50_validation.

Lemma doc_same fok i i' s : same_outcome (parse fok i) (parse fok i') -> same_ending same_document (parse_doc fok i s) (parse_doc fok i' s).
Proof.
  unfold parse_doc. destruct (parse fok i) as [d|m| |], (parse fok i') as [d'|m'| |]; intros H; try contradiction; try exact I. cbv zeta.
  pose proof (same_blank d d' H) as Hb. pose proof (C50_validation d d' s H) as [He _].
  assert (Hc : c_crash (validate d s) = c_crash (validate d' s)) by (apply bl_crash; rewrite <- !validate_blank, Hb; reflexivity).
  rewrite Hc, He. destruct (c_crash (validate d' s)); [exact I|]. destruct (c_errors (validate d' s)); [exact H|reflexivity].
Qed.
Lemma sdl_same fok peq fuel ord od ot oi i i' s : same_outcome (parse fok i) (parse fok i') ->
  same_ending eq (parse_sdl_doc fok peq fuel ord od ot oi i s) (parse_sdl_doc fok peq fuel ord od ot oi i' s).
Proof.
  unfold parse_sdl_doc. destruct (parse fok i) as [d|m| |], (parse fok i') as [d'|m'| |]; intros H; try contradiction; try exact I. cbv zeta.
  pose proof (same_blank d d' H) as Hb.
  assert (Hv : bl (validate_sdl d s) = bl (validate_sdl d' s)) by (rewrite <- !validate_sdl_blank, Hb; reflexivity).
  revert Hv. generalize (validate_sdl d s) as c, (validate_sdl d' s) as c'. intros c c' Hv.
  assert (Hw : bl (build_schema ord c) = bl (build_schema ord c')) by (rewrite <- !build_bl, Hv; reflexivity).
  assert (X : forall a b : ctx, bl a = bl b -> c_crash a = c_crash b /\ c_errors a = c_errors b /\ c_schema a = c_schema b).
  { intros a b E. split; [exact (f_equal c_crash E)|]. split; [exact (f_equal c_errors E)|exact (f_equal c_schema E)]. }
  destruct (X _ _ Hv) as (-> & -> & _). destruct (X _ _ Hw) as (-> & -> & ->).
  destruct (c_crash c'); [exact I|]. destruct (c_errors c'); [|reflexivity]. destruct (c_crash (build_schema ord c')); [exact I|].
  destruct (validate_schema _ _ _ _ _ _ _) as [[|e es]| |]; (exact I || reflexivity).
Qed.
(** Two sources with the same lexemes, whatever separates them. *)
Theorem C50_only_lexemes_matter : forall fok cs cs' toks toks',
  clean cs -> clean cs' -> regular_blocks cs -> regular_blocks cs' ->
  tokens_of cs toks -> tokens_of cs' toks' -> map ssrc toks = map ssrc toks' ->
  (forall s, same_ending same_document (parse_doc fok (utf8s cs) s) (parse_doc fok (utf8s cs') s)) /\
  (forall peq fuel ord od ot oi s, same_ending eq (parse_sdl_doc fok peq fuel ord od ot oi (utf8s cs) s) (parse_sdl_doc fok peq fuel ord od ot oi (utf8s cs') s)).
Proof.
  intros fok cs cs' toks toks' H1 H2 H3 H4 H5 H6 H7. pose proof (C09_same_document fok cs cs' toks toks' H1 H2 H3 H4 H5 H6 H7) as H. split; intros; [apply doc_same, H|apply sdl_same, H].
Qed.
Print Assumptions C50_only_lexemes_matter.
(** Inserting ignored text at the start of the source or after any token. *)
Theorem C50_insertion : forall fok a b ta tb rest g,
  lexing [] (a ++ b) ta b -> (a = [] \/ exists k ta', ta = ta' ++ [k] /\ sbefore k ++ ssrc k = a) ->
  lexing a b tb rest -> rest = [] \/ stuck rest -> ignored_text g ->
  clean (a ++ g ++ b) -> regular_blocks (a ++ b) -> regular_blocks (a ++ g ++ b) ->
  (forall s, same_ending same_document (parse_doc fok (utf8s (a ++ b)) s) (parse_doc fok (utf8s (a ++ g ++ b)) s)) /\
  (forall peq fuel ord od ot oi s, same_ending eq (parse_sdl_doc fok peq fuel ord od ot oi (utf8s (a ++ b)) s) (parse_sdl_doc fok peq fuel ord od ot oi (utf8s (a ++ g ++ b)) s)).
Proof.
  intros fok a b ta tb rest g H1 H2 H3 H4 H5 H6 H7 H8. pose proof (C09_insertion_same_document fok a b ta tb rest g H1 H2 H3 H4 H5 H6 H7 H8) as H. split; intros; [apply doc_same, H|apply sdl_same, H].
Qed.
Print Assumptions C50_insertion.
(** Replacing the source by the dump of its document (C15). *)
Theorem C50_dump : forall fg fok cs d, clean cs -> parse fok (utf8s cs) = Doc d -> dumpable fg d -> exists text, sdump fg d = Some text /\
  (forall s, same_ending same_document (parse_doc fok (utf8s cs) s) (parse_doc fok text s)) /\
  (forall peq fuel ord od ot oi s, same_ending eq (parse_sdl_doc fok peq fuel ord od ot oi (utf8s cs) s) (parse_sdl_doc fok peq fuel ord od ot oi text s)).
Proof.
  intros fg fok cs d Hc Hp Hd. destruct (C15_roundtrip fg fok cs d Hc Hp Hd) as (text & d' & Et & Hp' & Hs). exists text. split; [exact Et|].
  assert (H : same_outcome (parse fok (utf8s cs)) (parse fok text)). { rewrite Hp, Hp'. destruct Hs as (E & E1 & E2 & E3 & E4 & E5 & E6 & E7). cbn. rewrite E, E1, E2, E3, E4, E5, E6, E7. repeat split. }
  split; intros; [apply doc_same, H|apply sdl_same, H].
Qed.
Print Assumptions C50_dump.

(** ** C20 without a hypothesis about the counter *)
Theorem C20_parsed : forall fok i d s, parse fok i = Doc d ->
  reported is_anon (validate d s) = if Nat.ltb 1 (List.length (operations d)) then map (fun _ => EAnonNotAlone) (filter (fun o => if bytes_dec (o_name o) [] then true else false) (operations d)) else [].
Proof.
  intros fok i d s H. apply C20_exact. destruct (C14_counters fok i d H) as (-> & _). unfold count, operations. clear. induction (doc_defs d) as [|x ds IH]; [reflexivity|].
  cbn [map filter flat_map]. destruct (def_body x); cbn [List.length app]; rewrite ?IH; reflexivity.
Qed.
Print Assumptions C20_parsed.
(** The hypotheses of C50_insertion and C50_dump are those of C09 and C15 (C09_nonvacuous, C15_nonvacuous).  Documents that
    differ in their positions and are validated alike, with errors and without: *)
Definition lines (l : list string) : bytes := List.concat (map (fun s => B s ++ [bz 10]) l).
Example C50_nonvacuous :
  (exists d d' es, parse anyfloat (B "query Q($a:Int){f} {g(a:1 a:2)}") = Doc d /\ parse anyfloat (lines ["# c"; "query Q ($a: Int,) {f}"; " {g(a:1,"; " a:2)}"]%string) = Doc d' /\ same_document d d' /\ d <> d' /\
     parse_doc anyfloat (B "query Q($a:Int){f} {g(a:1 a:2)}") None = Reported es /\ List.length es = 3 /\ parse_doc anyfloat (lines ["# c"; "query Q ($a: Int,) {f}"; " {g(a:1,"; " a:2)}"]%string) None = Reported es) /\
  (exists d d', parse_doc anyfloat (B "{f}") None = Returned d /\ parse_doc anyfloat (lines ["";"{f}"]%string) None = Returned d' /\ same_document d d' /\ d <> d').
Proof.
  assert (S : forall d d', map def_body (doc_defs d) = map def_body (doc_defs d') -> [n_ops d; n_frags d; n_dirdefs d; n_schemas d; n_types d; n_schemaexts d; n_typeexts d] = [n_ops d'; n_frags d'; n_dirdefs d'; n_schemas d'; n_types d'; n_schemaexts d'; n_typeexts d'] -> same_document d d').
  { intros d d' E E'. injection E' as E1 E2 E3 E4 E5 E6 E7. split; [exact E|]. auto 10. }
  assert (N : forall d d', map def_line (doc_defs d) <> map def_line (doc_defs d') -> d <> d') by (intros d d' H ->; apply H; reflexivity).
  split.
  - do 3 eexists. split; [vm_compute; reflexivity|]. split; [vm_compute; reflexivity|]. split; [apply S; vm_compute; reflexivity|]. split; [apply N; vm_compute; congruence|]. split; [vm_compute; reflexivity|]. split; vm_compute; reflexivity.
  - do 2 eexists. split; [vm_compute; reflexivity|]. split; [vm_compute; reflexivity|]. split; [apply S; vm_compute; reflexivity|]. apply N; vm_compute; congruence.
Qed.
Example C20_parsed_nonvacuous : exists d, parse anyfloat (B "{a} query Q{b} {c}") = Doc d /\ reported is_anon (validate d None) = [EAnonNotAlone; EAnonNotAlone].
Proof. eexists. split; vm_compute; reflexivity. Qed.
