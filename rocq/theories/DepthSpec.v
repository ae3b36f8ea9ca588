(** * DepthSpec: how deep a source and a document are nested. *)
From Verif Require Import Base Utf8 Lexer AST.

(** The tokens [open] and [close] the brackets of selection sets, list and object values, list types and the bodies of definitions. *)
Definition bracket (ls : list string) (t : token) : bool :=
  match tkind t with KPunct => existsb (fun l => beqb (tlit t) (B l)) ls | _ => false end.
Definition how_many (ls : list string) (ts : list token) : nat := List.length (filter (bracket ls) ts).
(** Nowhere in [ts] are more than [h] braces and square brackets open. *)
Definition nested_at_most (h : nat) (ts : list token) : Prop :=
  forall pre post, ts = pre ++ post -> how_many ["{"; "["]%string pre <= h + how_many ["}"; "]"]%string pre.

(** A type, a value, a selection set that is nested at most [k] deep: a name or a scalar is 1 deep, a list one deeper than its deepest item.
    A selection set is one deeper than anything in it; a field without a selection set counts as having an empty one. *)
Fixpoint ty_fits (k : nat) (t : ty) : Prop :=
  match k with
  | O => False
  | S k => match t with TNamed _ _ => True | TList t _ => ty_fits k t | TListNil => 0 < k end
  end.
Fixpoint value_fits (k : nat) (v : value) : Prop :=
  match k with
  | O => False
  | S k => match v with
           | VList l => Forall (value_fits k) l
           | VObject fs => Forall (fun f => value_fits k (snd f)) fs
           | _ => True
           end
  end.
Definition option_fits {A} (f : A -> Prop) (o : option A) : Prop := match o with Some a => f a | None => True end.
Definition args_fit (k : nat) (l : list argument) : Prop := Forall (fun a => value_fits k (arg_value a)) l.
Definition dirs_fit (k : nat) (l : list directive) : Prop := Forall (fun d => args_fit k (d_args d)) l.
Fixpoint sels_fit (k : nat) (l : list selection) : Prop :=
  match k with
  | O => False
  | S k => Forall (fun s => match s with
                            | SField _ _ args dirs sels => args_fit k args /\ dirs_fit k dirs /\ sels_fit k sels
                            | SSpread _ dirs => dirs_fit k dirs
                            | SInline cond dirs sels => option_fits (ty_fits k) cond /\ dirs_fit k dirs /\ sels_fit k sels
                            end) l
  end.
Definition iv_fits (k : nat) (i : ivdef) : Prop := ty_fits k (i_type i) /\ option_fits (value_fits k) (i_default i) /\ dirs_fit k (i_dirs i).
Definition fd_fits (k : nat) (f : fielddef) : Prop := Forall (iv_fits k) (fd_args f) /\ ty_fits k (fd_type f) /\ dirs_fit k (fd_dirs f).
Definition td_fits (k : nat) (t : tydef) : Prop :=
  Forall (ty_fits k) (t_impl t) /\ dirs_fit k (t_dirs t) /\ Forall (fd_fits k) (t_fields t) /\ Forall (ty_fits k) (t_members t) /\
  Forall (fun v => dirs_fit k (ev_dirs v)) (t_values t) /\ Forall (iv_fits k) (t_inputs t).
Definition sd_fits (k : nat) (s : schemadef) : Prop := dirs_fit k (s_dirs s) /\ Forall (fun o => ty_fits k (ot_type o)) (s_ops s).
Definition body_fits (k : nat) (b : body) : Prop :=
  match b with
  | DOp o => Forall (fun v => ty_fits k (v_type v) /\ option_fits (value_fits k) (v_default v)) (o_vars o) /\ dirs_fit k (o_dirs o) /\ sels_fit k (o_sels o)
  | DFrag f => ty_fits k (f_cond f) /\ dirs_fit k (f_dirs f) /\ sels_fit k (f_sels f)
  | DDir d => Forall (iv_fits k) (dd_args d)
  | DSchema s | XSchema s => sd_fits k s
  | DType t | XType t => td_fits k t
  end.
(** Nothing in the document is nested more than [k] deep. *)
Definition document_fits (k : nat) (d : document) : Prop := Forall (fun x => body_fits k (def_body x)) (doc_defs d).
