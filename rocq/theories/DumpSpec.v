(** * DumpSpec: the documents whose dump keeps everything (used by C15).

    Each condition is needed: C15_refuted (PropDump.v) lists, for each of them, a parsed document that violates it and whose
    dump does not read back as the same document.  Texts are lists of code points; [blank], [white], [lines_of] and [contains]
    are those of LexSpec.v. *)
From Verif Require Import Base Utf8 LexSpec AST.
Local Open Scope Z_scope.

(** A text printed as the inside of a block string, with any indentation added to all of its lines, reads back: it has no
    control characters but tabs and line feeds, its first and last lines are not blank, and some line starts at the margin. *)
Definition block_stable (v : list Z) : Prop :=
  Forall (fun c => scalar c /\ (c = 9 \/ c = 10 \/ 32 <= c)) v /\
  blank (hd [] (lines_of v [])) = false /\ blank (last (lines_of v []) []) = false /\
  Exists (fun l => exists c t, l = c :: t /\ white c = false) (lines_of v []).

(** Strings with a line feed are printed as block strings, the others quoted. *)
Definition string_survives (s : bytes) : Prop :=
  exists v, s = utf8s v /\
    (In 10 v -> block_stable v /\ ~ contains (92 :: triple) v) /\
    (~ In 10 v -> Forall (fun c => scalar c /\ (c = 8 \/ c = 9 \/ c = 12 \/ 32 <= c)) v).

(** Descriptions are printed as block strings without escaping; no description is the empty one. *)
Definition desc_survives (d : bytes) : Prop :=
  d = [] \/ exists v, d = utf8s v /\ block_stable v /\ ~ contains triple v.

Section Dumpable.
(** [fg lit]: what %g prints for the float the literal denotes. *)
Variable fg : bytes -> bytes.

Inductive value_survives : value -> Prop :=
| vs_var n : value_survives (VVar n)
| vs_int z : value_survives (VInt z)
| vs_float lit : fg lit = lit -> value_survives (VFloat lit)
| vs_string s : string_survives s -> value_survives (VString s)
| vs_bool b : value_survives (VBool b)
| vs_null : value_survives VNull
| vs_enum n : value_survives (VEnum n)
| vs_list l : Forall value_survives l -> value_survives (VList l)
| vs_object fs : Forall (fun f => value_survives (snd f)) fs -> value_survives (VObject fs).
Definition args_survive (l : list argument) : Prop := Forall (fun a => value_survives (arg_value a)) l.
Definition dirs_survive (l : list directive) : Prop := Forall (fun d => args_survive (d_args d)) l.
Definition default_survives (o : option value) : Prop := forall v, o = Some v -> value_survives v.

(** Type conditions, interfaces and union members are printed as a bare name. *)
Definition bare (t : ty) : Prop := exists n, t = TNamed n false.
(** The types of fields and input values are printed as a name and, possibly, an exclamation mark. *)
Definition unlisted (t : ty) : Prop := exists n nn, t = TNamed n nn.
(** The types of variables are printed in full, but a list type must have an item type. *)
Inductive has_items : ty -> Prop :=
| hi_named n nn : has_items (TNamed n nn)
| hi_list t nn : has_items t -> has_items (TList t nn).

Inductive sel_survives : selection -> Prop :=
| ss_field al n args ds ss : args_survive args -> dirs_survive ds -> Forall sel_survives ss ->
    sel_survives (SField al n args ds ss)
| ss_spread n ds : dirs_survive ds -> sel_survives (SSpread n ds)
| ss_inline c ds ss : (forall t, c = Some t -> bare t) -> dirs_survive ds -> Forall sel_survives ss ->
    sel_survives (SInline c ds ss).

(** [alone]: the document has one definition.  The keyword of a lone query without a name is not printed, its variables
    and directives are. *)
Definition op_survives (alone : Prop) (o : opdef) : Prop :=
  Forall (fun v => has_items (v_type v) /\ default_survives (v_default v)) (o_vars o) /\
  dirs_survive (o_dirs o) /\ Forall sel_survives (o_sels o) /\
  (alone -> o_kind o = Query -> o_name o = [] -> o_vars o = [] /\ o_dirs o = []).
Definition frag_survives (f : fragdef) : Prop :=
  bare (f_cond f) /\ dirs_survive (f_dirs f) /\ Forall sel_survives (f_sels f).
Definition iv_survives (i : ivdef) : Prop :=
  desc_survives (i_desc i) /\ unlisted (i_type i) /\ default_survives (i_default i) /\ dirs_survive (i_dirs i).
Definition fd_survives (f : fielddef) : Prop :=
  desc_survives (fd_desc f) /\ Forall iv_survives (fd_args f) /\ unlisted (fd_type f) /\ dirs_survive (fd_dirs f).
Definition ev_survives (e : enumval) : Prop := desc_survives (ev_desc e) /\ dirs_survive (ev_dirs e).
Definition td_survives (t : tydef) : Prop :=
  desc_survives (t_desc t) /\ Forall bare (t_impl t) /\ dirs_survive (t_dirs t) /\ Forall fd_survives (t_fields t) /\
  Forall bare (t_members t) /\ Forall ev_survives (t_values t) /\ Forall iv_survives (t_inputs t).
Definition body_survives (alone : Prop) (b : body) : Prop :=
  match b with
  | DOp o => op_survives alone o
  | DFrag f => frag_survives f
  | DSchema s | XSchema s => dirs_survive (s_dirs s)
  | DType t | XType t => td_survives t
  | DDir d => desc_survives (dd_desc d) /\ Forall iv_survives (dd_args d)
  end.
Definition dumpable (d : document) : Prop :=
  Forall (fun x => body_survives (List.length (doc_defs d) = 1%nat) (def_body x)) (doc_defs d).
End Dumpable.
