(** * Dumper: model of ast/dumper.go (Sdump/Fdump: a document as text).

    The io.Writer is a bytes.Buffer whose writes cannot fail: a dump function returns the bytes it writes, [None] being the
    run-time panic of a nil dereference.  [depth] is the field [d.depth] on entry (the functions restore it), [defs] is
    [d.defs].  [fg lit] is what [fmt.Sprintf("%g", f)] prints for the float64 [f] that [strconv.ParseFloat] makes of the
    literal [lit] (AST.v keeps the literal); everything holds for any such function. *)
From Verif Require Import Base Utf8 AST.

Definition W := option bytes.
Definition wr (b : bytes) : W := Some b.
(** [io.WriteString] of a literal. *)
Definition ws (s : string) : W := Some (B s).
Definition wseq (a b : W) : W := match a, b with Some x, Some y => Some (x ++ y) | _, _ => None end.
Notation "a +++ b" := (wseq a b) (at level 60, right associativity).
Definition wskip : W := Some [].
Definition wwhen (c : bool) (a : W) : W := if c then a else wskip.
Definition LF : ascii := ascii_of_nat 10.
Definition wlf : W := Some [LF].

(** [ForEach(func(x, i))] from index [i] on (LinkedList.v). *)
Definition wfori {A} (f : nat -> A -> W) : nat -> list A -> W :=
  fix go i l := match l with [] => wskip | x :: l' => f i x +++ go (S i) l' end.
Definition wfor {A} (f : nat -> A -> W) (l : list A) : W := wfori f 0 l.
Definition nonnil {A} (l : list A) : bool := match l with [] => false | _ => true end.

(** dumper.go:36 [indentation], repeated. *)
Fixpoint repeats (s : bytes) (n : nat) : bytes := match n with O => [] | S m => s ++ repeats s m end.
Definition indentation : bytes := B "  ".
Definition indent (depth : nat) : W := wr (repeats indentation depth).

(** ** Utility functions *)
(** [fmt.Sprintf("%x", r)] for [0 <= r]. *)
Definition hexchar (n : Z) : ascii := bz (if n <? 10 then 48 + n else 87 + n)%Z.
Fixpoint hex_of (fuel : nat) (n : Z) (acc : bytes) : bytes :=
  match fuel with
  | O => acc
  | S f => let d := hexchar (n mod 16) in if (n <? 16)%Z then d :: acc else hex_of f (n / 16)%Z (d :: acc)
  end.
Definition hexx (r : Z) : bytes := hex_of 16 r [].
(** dumper.go:964-992 [escapeGraphQLString]: one rune. [buf.WriteRune] writes its UTF-8 encoding. *)
Definition escape_rune (r : Z) : bytes :=
  (if (128 <=? r) && (r <=? 65535) then B "\u" ++ repeats (B "0") (4 - List.length (hexx r)) ++ hexx r
   else if r =? 34 then B "\"""
   else if r =? 92 then B "\\"
   else if r =? 47 then B "\/"
   else if r =? 8 then B "\b"
   else if r =? 12 then B "\f"
   else if r =? 9 then B "\t"
   else utf8 r)%Z.
(** [for _, r := range in] decodes runes one after the other. *)
Fixpoint escape_loop (fuel : nat) (s : bytes) : bytes :=
  match fuel with
  | O => []
  | S f => match s with
           | [] => []
           | _ => let '(r, w) := decode_rune s in escape_rune r ++ escape_loop f (skipn w s)
           end
  end.
Definition escapeGraphQLString (s : bytes) : bytes := escape_loop (List.length s) s.

(** dumper.go:996-998 [escapeGraphQLBlockString]: [strings.Replace(in, `"""`, `\"""`, -1)]. *)
Definition Q : ascii := ascii_of_nat 34.
Fixpoint escapeGraphQLBlockString (s : bytes) : bytes :=
  match s with
  | [] => []
  | a :: t =>
      match t with
      | b :: c :: t' =>
          if Ascii.eqb a Q && Ascii.eqb b Q && Ascii.eqb c Q then B "\""""""" ++ escapeGraphQLBlockString t'
          else a :: escapeGraphQLBlockString t
      | _ => a :: escapeGraphQLBlockString t
      end
  end.
(** [strings.Split(s, "\n")]. *)
Fixpoint strings_split (s : bytes) : list bytes :=
  match s with
  | [] => [[]]
  | c :: t => if Ascii.eqb c LF then [] :: strings_split t
              else match strings_split t with l :: ls => (c :: l) :: ls | [] => [[c]] end
  end.

Section Dumper.
Variable fg : bytes -> bytes.

(** ** Values, types, arguments, directives *)
(** dumper.go:258-338 [dumpValue]. *)
Definition dumpString (depth : nat) (s : bytes) : W :=
  if existsb (Ascii.eqb LF) s then
    let lines := strings_split (escapeGraphQLBlockString s) in
    ws """""""" +++ wlf
    +++ wfor (fun i line => indent depth +++ wr indentation +++ wr line
                            +++ wwhen (negb (Nat.eqb i (List.length lines - 1))) wlf) lines
    +++ wlf +++ indent depth +++ ws """"""""
  else ws """" +++ wr (escapeGraphQLString s) +++ ws """".

Fixpoint dumpValue (depth : nat) (v : value) {struct v} : W :=
  match v with
  | VVar n => ws "$" +++ wr n
  | VInt z => wr (itoa z)
  | VFloat lit => wr (fg lit)
  | VString s => dumpString depth s
  | VBool b => if b then ws "true" else ws "false"
  | VNull => ws "null"
  | VEnum n => wr n
  | VList l =>
      ws "[" +++ wfor (fun i x => dumpValue depth x +++ wwhen (Nat.ltb i (List.length l - 1)) (ws ", ")) l +++ ws "]"
  | VObject fs =>
      ws "{ " +++ wfor (fun i f => wr (fst f) +++ ws ": " +++ dumpValue depth (snd f)
                                   +++ wwhen (Nat.ltb i (List.length fs - 1)) (ws ", ")) fs +++ ws " }"
  end.

(** dumper.go:372-385 [dumpType]. *)
Fixpoint dumpType (t : ty) : W :=
  match t with
  | TNamed n nn => wr n +++ wwhen nn (ws "!")
  | TList t' nn => ws "[" +++ dumpType t' +++ ws "]" +++ wwhen nn (ws "!")
  | TListNil => None
  end.

(** The fields [NamedType] and [NonNullable] of a type. *)
Definition named_type (t : ty) : bytes := match t with TNamed n _ => n | _ => [] end.
Definition non_nullable (t : ty) : bool := match t with TNamed _ nn | TList _ nn => nn | TListNil => false end.

(** dumper.go:191-196 [dumpArgument], 173-189 [dumpArguments]. *)
Definition dumpArgument (depth : nat) (a : argument) : W :=
  wr (arg_name a) +++ ws ": " +++ dumpValue depth (arg_value a).
Definition dumpArguments (depth : nat) (args : list argument) : W :=
  if Nat.eqb (List.length args) 0 then wskip
  else ws "(" +++ wfor (fun i a => dumpArgument depth a +++ wwhen (Nat.ltb i (List.length args - 1)) (ws ", ")) args
       +++ ws ")".

(** dumper.go:398-403 [dumpDirective], 388-396 [dumpDirectives]. *)
Definition dumpDirective (depth : nat) (d : directive) : W :=
  ws "@" +++ wr (d_name d) +++ dumpArguments depth (d_args d).
Definition dumpDirectives (depth : nat) (ds : list directive) : W :=
  wfor (fun i d => wwhen (negb (Nat.eqb i 0)) (ws " ") +++ dumpDirective depth d) ds.
(** The recurring [if x.Directives != nil { " "; dumpDirectives }]. *)
Definition dumpOptDirectives (depth : nat) (ds : list directive) : W :=
  wwhen (nonnil ds) (ws " " +++ dumpDirectives depth ds).

(** ** Executable definitions *)
(** dumper.go:119-129 [dumpSelections], 131-144 [dumpSelection] (which increments [depth]),
    147-170 [dumpFieldSelection], 199-211 [dumpFragmentSpread], 214-235 [dumpInlineFragment]. *)
Fixpoint dumpSelection (depth : nat) (s : selection) {struct s} : W :=
  let depth := S depth in
  let dumpSelections (ss : list selection) :=
    ws "{" +++ wlf +++ wfor (fun _ x => dumpSelection depth x +++ wlf) ss +++ indent depth +++ ws "}" in
  match s with
  | SField alias name args ds ss =>
      indent depth +++ wwhen (nonnil alias) (wr alias +++ ws ": ") +++ wr name +++ dumpArguments depth args
      +++ dumpOptDirectives depth ds +++ wwhen (nonnil ss) (ws " " +++ dumpSelections ss)
  | SSpread name ds => indent depth +++ ws "..." +++ wr name +++ dumpOptDirectives depth ds
  | SInline cond ds ss =>
      indent depth +++ ws "..."
      +++ match cond with Some t => ws " " +++ ws "on" +++ ws " " +++ wr (named_type t) | None => wskip end
      +++ dumpOptDirectives depth ds +++ ws " " +++ dumpSelections ss
  end.
Definition dumpSelections (depth : nat) (ss : list selection) : W :=
  ws "{" +++ wlf +++ wfor (fun _ x => dumpSelection depth x +++ wlf) ss +++ indent depth +++ ws "}".

(** dumper.go:357-369 [dumpVariableDefinition], 341-355 [dumpVariableDefinitions]. *)
Definition dumpVariableDefinition (v : vardef) : W :=
  ws "$" +++ wr (v_name v) +++ ws ": " +++ dumpType (v_type v)
  +++ match v_default v with Some d => ws " = " +++ dumpValue 0 d | None => wskip end.
Definition dumpVariableDefinitions (vs : list vardef) : W :=
  ws "(" +++ wfor (fun i v => dumpVariableDefinition v +++ wwhen (Nat.ltb i (List.length vs - 1)) (ws ", ")) vs +++ ws ")".

(** dumper.go:81-116 [dumpOperationDefinition]. *)
Definition dumpOperationDefinition (defs : nat) (o : opdef) : W :=
  let shorthand := Nat.eqb defs 1 in
  match o_kind o with
  | Query => wwhen (negb shorthand || nonnil (o_name o)) (ws "query ")
  | Mutation => ws "mutation "
  | Subscription => ws "subscription "
  end
  +++ wwhen (nonnil (o_name o)) (wr (o_name o))
  +++ wwhen (nonnil (o_vars o)) (dumpVariableDefinitions (o_vars o))
  +++ dumpOptDirectives 0 (o_dirs o)
  +++ wwhen (negb shorthand) (ws " ")
  +++ dumpSelections 0 (o_sels o).

(** dumper.go:237-255 [dumpFragmentDefinition]. *)
Definition dumpFragmentDefinition (f : fragdef) : W :=
  ws "fragment" +++ ws " " +++ wr (f_name f) +++ ws " " +++ ws "on" +++ ws " " +++ wr (named_type (f_cond f))
  +++ dumpOptDirectives 0 (f_dirs f) +++ ws " " +++ dumpSelections 0 (f_sels f).

(** ** Type system definitions *)
(** dumper.go:449-457 [dumpOperationTypeDefinition] (at depth 1); ast.go:145-158 [OperationDefinitionKind.String]. *)
Definition opkind_string (k : opkind) : W :=
  match k with Query => ws "query" | Mutation => ws "mutation" | Subscription => ws "subscription" end.
Definition dumpOperationTypeDefinition (o : optype) : W :=
  indent 1 +++ opkind_string (ot_op o) +++ ws ": " +++ dumpType (ot_type o).
(** dumper.go:428-446 [dumpSchemaDefinition]. *)
Definition dumpSchemaDefinition (s : schemadef) : W :=
  ws "schema" +++ dumpOptDirectives 0 (s_dirs s) +++ ws " {" +++ wlf
  +++ wfor (fun _ o => dumpOperationTypeDefinition o +++ wlf) (s_ops s) +++ ws "}".
(** dumper.go:460-480 [dumpSchemaExtension]. *)
Definition dumpSchemaExtension (s : schemadef) : W :=
  ws "extend schema" +++ dumpOptDirectives 0 (s_dirs s)
  +++ wwhen (nonnil (s_ops s))
        (ws " {" +++ wlf +++ wfor (fun _ o => dumpOperationTypeDefinition o +++ wlf) (s_ops s) +++ ws "}").

(** dumper.go:483-489 [dumpDescription]. *)
Definition dumpDescription (d : bytes) : W :=
  wwhen (nonnil d) (ws """""""" +++ wlf +++ wr d +++ wlf +++ ws """""""" +++ wlf).

(** dumper.go:657-676 [dumpInputValueDefinition], 643-654 [dumpArgumentsDefinition], 873-883 [dumpInputFieldsDefinition]. *)
Definition dumpInputValueDefinition (i : ivdef) : W :=
  dumpDescription (i_desc i) +++ wr (i_name i) +++ ws ": " +++ wr (named_type (i_type i))
  +++ wwhen (non_nullable (i_type i)) (ws "!")
  +++ match i_default i with Some d => ws " = " +++ dumpValue 0 d | None => wskip end
  +++ dumpOptDirectives 0 (i_dirs i).
Definition dumpArgumentsDefinition (l : list ivdef) : W :=
  ws "(" +++ wfor (fun i x => wwhen (Nat.ltb 0 i) (ws ", ") +++ dumpInputValueDefinition x) l +++ ws ")".
Definition dumpInputFieldsDefinition (l : list ivdef) : W :=
  ws "{" +++ wlf +++ wfor (fun _ x => wr indentation +++ dumpInputValueDefinition x +++ wlf) l +++ ws "}".

(** dumper.go:620-640 [dumpFieldDefinition], 609-618 [dumpFieldsDefinition]. *)
Definition dumpFieldDefinition (f : fielddef) : W :=
  dumpDescription (fd_desc f) +++ wr indentation +++ wr (fd_name f)
  +++ wwhen (nonnil (fd_args f)) (dumpArgumentsDefinition (fd_args f))
  +++ ws ": " +++ wr (named_type (fd_type f)) +++ wwhen (non_nullable (fd_type f)) (ws "!")
  +++ dumpOptDirectives 0 (fd_dirs f).
Definition dumpFieldsDefinition (l : list fielddef) : W :=
  ws "{" +++ wlf +++ wfor (fun _ x => dumpFieldDefinition x +++ wlf) l +++ ws "}".

(** dumper.go:827-837 [dumpEnumValueDefinition], 816-825 [dumpEnumValuesDefinition]. *)
Definition dumpEnumValueDefinition (e : enumval) : W :=
  dumpDescription (ev_desc e) +++ wr indentation +++ wr (ev_name e) +++ dumpOptDirectives 0 (ev_dirs e).
Definition dumpEnumValuesDefinition (l : list enumval) : W :=
  ws "{" +++ wlf +++ wfor (fun _ x => dumpEnumValueDefinition x +++ wlf) l +++ ws "}".

(** The list layout shared by 584-607, 761-780 and 927-956: on one line below three items. *)
Definition dumpSeparated (sep1 sep3 : bytes) (names : list bytes) : W :=
  let l := List.length names in
  let separator := if Nat.ltb l 3 then sep1 else sep3 in
  (if Nat.ltb l 3 then ws " " else wr separator)
  +++ wfor (fun i n => wr n +++ wwhen (Nat.ltb i (l - 1)) (wr separator)) names.
(** dumper.go:584-607 [dumpImplementsInterfaces]. *)
Definition dumpImplementsInterfaces (ii : list ty) (hasFields : bool) : W :=
  ws "implements"
  +++ dumpSeparated (B " & ") (LF :: B " " ++ (if hasFields then indentation else []) ++ B " & ") (map named_type ii).
(** dumper.go:761-780 [dumpUnionMemberTypes]. *)
Definition dumpUnionMemberTypes (umt : list ty) : W :=
  ws "=" +++ dumpSeparated (B " | ") (LF :: B " " ++ B " | ") (map named_type umt).
(** dumper.go:927-956 [dumpDirectiveLocations]: [for i := 0; i <= len(NamesByDirectiveLocations); i++]. *)
Definition locations_of (l : dirloc) : list bytes :=
  flat_map (fun i => let bit := N.land l (N.shiftl 1 (N.of_nat i)) in
                     if N.eqb bit 0 then [] else [location_name bit])
           (seq 0 (S (List.length location_names))).
Definition dumpDirectiveLocations (l : dirloc) : W :=
  dumpSeparated (B " | ") (LF :: B " " ++ B " | ") (locations_of l).

(** dumper.go:528-538, 552-572, 700-715, 734-749, 799-814, 856-871 [dumpTypeDefinition...] and, with [ext = true],
    541-549, 679-697, 718-731, 783-796, 840-853, 886-899 [dump...TypeExtension] (no description, "extend " in front). *)
Definition dumpTypeBody (ext : bool) (t : tydef) : W :=
  wwhen (negb ext) (dumpDescription (t_desc t)) +++ wwhen ext (ws "extend ")
  +++ match t_kind t with
      | KScalar => ws "scalar " +++ wr (t_name t) +++ dumpOptDirectives 0 (t_dirs t)
      | KObject =>
          ws "type " +++ wr (t_name t)
          +++ wwhen (nonnil (t_impl t)) (ws " " +++ dumpImplementsInterfaces (t_impl t) (nonnil (t_fields t)))
          +++ dumpOptDirectives 0 (t_dirs t)
          +++ wwhen (nonnil (t_fields t)) (ws " " +++ dumpFieldsDefinition (t_fields t))
      | KInterface =>
          ws "interface " +++ wr (t_name t) +++ dumpOptDirectives 0 (t_dirs t)
          +++ wwhen (nonnil (t_fields t)) (ws " " +++ dumpFieldsDefinition (t_fields t))
      | KUnion =>
          ws "union " +++ wr (t_name t) +++ dumpOptDirectives 0 (t_dirs t)
          +++ wwhen (nonnil (t_members t)) (ws " " +++ dumpUnionMemberTypes (t_members t))
      | KEnum =>
          ws "enum " +++ wr (t_name t) +++ dumpOptDirectives 0 (t_dirs t)
          +++ wwhen (nonnil (t_values t)) (ws " " +++ dumpEnumValuesDefinition (t_values t))
      | KInputObject =>
          ws "input " +++ wr (t_name t) +++ dumpOptDirectives 0 (t_dirs t)
          +++ wwhen (nonnil (t_inputs t)) (ws " " +++ dumpInputFieldsDefinition (t_inputs t))
      end.

(** dumper.go:903-915 [dumpDirectiveDefinition]. *)
Definition dumpDirectiveDefinition (d : dirdef) : W :=
  dumpDescription (dd_desc d) +++ ws "directive @" +++ wr (dd_name d)
  +++ wwhen (nonnil (dd_args d)) (dumpArgumentsDefinition (dd_args d))
  +++ ws " on" +++ dumpDirectiveLocations (dd_locs d).

(** ** Documents *)
(** dumper.go:60-78,406-425,492-525: dispatch on the definition kinds. *)
Definition dumpDefinition (defs : nat) (b : body) : W :=
  match b with
  | DOp o => dumpOperationDefinition defs o
  | DFrag f => dumpFragmentDefinition f
  | DSchema s => dumpSchemaDefinition s
  | DType t => dumpTypeBody false t
  | DDir d => dumpDirectiveDefinition d
  | XSchema s => dumpSchemaExtension s
  | XType t => dumpTypeBody true t
  end.
(** dumper.go:46-58 [dumpDefinitions]; 14-33 [Fdump], [Sdump]. *)
Definition dumpDefinitions (defs : nat) (l : list definition) : W :=
  wfor (fun i d => wwhen (negb (Nat.eqb i 0)) wlf +++ dumpDefinition defs (def_body d)
                   +++ wwhen (Nat.ltb i (defs - 1)) wlf) l.
Definition sdump (d : document) : W := dumpDefinitions (List.length (doc_defs d)) (doc_defs d).
End Dumper.
