(** * Written: the texts a document holds and how many nodes it has — a specification, on the AST alone.

    The texts are the names, strings, float literals and descriptions held by the document, in the order in which a source writes
    them, each with the kind of token it must come from.  An absent alias, operation name or description is the empty string and is
    not a text (ast/ast.go: a zero value). *)
From Verif Require Import Base Utf8 Lexer AST.

(** [within l m]: the elements of [l] occur in [m], in this order, each at a place of its own. *)
Inductive within {A} : list A -> list A -> Prop :=
| wi_nil : within [] []
| wi_skip x l m : within l m -> within l (x :: m)
| wi_keep x l m : within l m -> within (x :: l) (x :: m).

Definition text := (kind * bytes)%type.
Definition nm (n : bytes) : text := (KName, n).
Definition given (k : kind) (b : bytes) : list text := match b with [] => [] | _ => [(k, b)] end.

Fixpoint ty_texts (t : ty) : list text :=
  match t with TNamed n _ => [nm n] | TList t _ => ty_texts t | TListNil => [] end.
Fixpoint value_texts (v : value) : list text :=
  match v with
  | VVar n => [nm n]
  | VInt _ => []
  | VFloat l => [(KFloat, l)]
  | VString s => [(KString, s)]
  | VBool true => [nm (B "true")]
  | VBool false => [nm (B "false")]
  | VNull => [nm (B "null")]
  | VEnum n => [nm n]
  | VList l => flat_map value_texts l
  | VObject fs => flat_map (fun f => nm (fst f) :: value_texts (snd f)) fs
  end.
Definition default_texts (o : option value) : list text := match o with Some v => value_texts v | None => [] end.
Definition arg_texts (a : argument) : list text := nm (arg_name a) :: value_texts (arg_value a).
Definition dir_texts (d : directive) : list text := nm (d_name d) :: flat_map arg_texts (d_args d).
Definition dirs_texts (l : list directive) : list text := flat_map dir_texts l.
Fixpoint sel_texts (s : selection) : list text :=
  match s with
  | SField al n args ds ss => given KName al ++ nm n :: flat_map arg_texts args ++ dirs_texts ds ++ flat_map sel_texts ss
  | SSpread n ds => nm n :: dirs_texts ds
  | SInline c ds ss => match c with Some t => ty_texts t | None => [] end ++ dirs_texts ds ++ flat_map sel_texts ss
  end.
Definition var_texts (v : vardef) : list text := nm (v_name v) :: ty_texts (v_type v) ++ default_texts (v_default v).
Definition op_texts (o : opdef) : list text :=
  given KName (o_name o) ++ flat_map var_texts (o_vars o) ++ dirs_texts (o_dirs o) ++ flat_map sel_texts (o_sels o).
Definition frag_texts (f : fragdef) : list text :=
  nm (f_name f) :: ty_texts (f_cond f) ++ dirs_texts (f_dirs f) ++ flat_map sel_texts (f_sels f).
Definition iv_texts (i : ivdef) : list text :=
  given KString (i_desc i) ++ nm (i_name i) :: ty_texts (i_type i) ++ default_texts (i_default i) ++ dirs_texts (i_dirs i).
Definition fd_texts (f : fielddef) : list text :=
  given KString (fd_desc f) ++ nm (fd_name f) :: flat_map iv_texts (fd_args f) ++ ty_texts (fd_type f) ++ dirs_texts (fd_dirs f).
Definition ev_texts (e : enumval) : list text := given KString (ev_desc e) ++ nm (ev_name e) :: dirs_texts (ev_dirs e).
Definition td_inside (t : tydef) : list text :=
  nm (t_name t) :: flat_map ty_texts (t_impl t) ++ dirs_texts (t_dirs t) ++ flat_map fd_texts (t_fields t)
    ++ flat_map ty_texts (t_members t) ++ flat_map ev_texts (t_values t) ++ flat_map iv_texts (t_inputs t).
Definition td_texts (t : tydef) : list text := given KString (t_desc t) ++ td_inside t.
Definition sd_texts (s : schemadef) : list text := dirs_texts (s_dirs s) ++ flat_map (fun o => ty_texts (ot_type o)) (s_ops s).
Definition dd_inside (d : dirdef) : list text := nm (dd_name d) :: flat_map iv_texts (dd_args d).
Definition dd_texts (d : dirdef) : list text := given KString (dd_desc d) ++ dd_inside d.
Definition body_texts (b : body) : list text :=
  match b with
  | DOp o => op_texts o | DFrag f => frag_texts f
  | DSchema s | XSchema s => sd_texts s
  | DType t | XType t => td_texts t
  | DDir d => dd_texts d
  end.
Definition document_texts (ds : list definition) : list text := flat_map (fun d => body_texts (def_body d)) ds.

(** How many nodes there are: every type reference (list types count once for each bracket), value, object field, argument,
    directive, selection, variable definition, field, input value, enum value, operation type and definition. *)
Definition total {A} (f : A -> nat) (l : list A) : nat := fold_right (fun a n => f a + n) 0 l.
Fixpoint ty_size (t : ty) : nat := match t with TNamed _ _ => 1 | TList t _ => S (ty_size t) | TListNil => 1 end.
Fixpoint value_size (v : value) : nat :=
  match v with
  | VList l => S (total value_size l)
  | VObject fs => S (total (fun f => S (value_size (snd f))) fs)
  | _ => 1
  end.
Definition default_size (o : option value) : nat := match o with Some v => value_size v | None => 0 end.
Definition arg_size (a : argument) : nat := S (value_size (arg_value a)).
Definition dir_size (d : directive) : nat := S (total arg_size (d_args d)).
Definition dirs_size (l : list directive) : nat := total dir_size l.
Fixpoint sel_size (s : selection) : nat :=
  match s with
  | SField _ _ args ds ss => S (total arg_size args + dirs_size ds + total sel_size ss)
  | SSpread _ ds => S (dirs_size ds)
  | SInline c ds ss => S (match c with Some t => ty_size t | None => 0 end + dirs_size ds + total sel_size ss)
  end.
Definition var_size (v : vardef) : nat := S (ty_size (v_type v) + default_size (v_default v)).
Definition op_size (o : opdef) : nat := S (total var_size (o_vars o) + dirs_size (o_dirs o) + total sel_size (o_sels o)).
Definition frag_size (f : fragdef) : nat := S (ty_size (f_cond f) + dirs_size (f_dirs f) + total sel_size (f_sels f)).
Definition iv_size (i : ivdef) : nat := S (ty_size (i_type i) + default_size (i_default i) + dirs_size (i_dirs i)).
Definition fd_size (f : fielddef) : nat := S (total iv_size (fd_args f) + ty_size (fd_type f) + dirs_size (fd_dirs f)).
Definition ev_size (e : enumval) : nat := S (dirs_size (ev_dirs e)).
Definition td_size (t : tydef) : nat :=
  S (total ty_size (t_impl t) + dirs_size (t_dirs t) + total fd_size (t_fields t) + total ty_size (t_members t)
     + total ev_size (t_values t) + total iv_size (t_inputs t)).
Definition sd_size (s : schemadef) : nat := S (dirs_size (s_dirs s) + total (fun o => S (ty_size (ot_type o))) (s_ops s)).
Definition dd_size (d : dirdef) : nat := S (total iv_size (dd_args d)).
Definition body_size (b : body) : nat :=
  match b with
  | DOp o => op_size o | DFrag f => frag_size f
  | DSchema s | XSchema s => sd_size s
  | DType t | XType t => td_size t
  | DDir d => dd_size d
  end.
Definition document_size (ds : list definition) : nat := total (fun d => body_size (def_body d)) ds.
