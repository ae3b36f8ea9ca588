(** * Grammar: the GraphQL June 2018 grammar (spec appendix B.3) as a specification, independent of the parser.

    A nonterminal is a relation [g ts a r]: the tokens of [ts] before the suffix [r] derive the construct [a]
    (so the rule "S : A B" reads [A ts a r1 -> B r1 b r -> S ts (a,b) r]).

    [June2018] is the specification.  [Lenient] adds the relaxations the parser has (each marked below), [Any]
    adds the broken list types it lets through. *)
From Verif Require Import Base Utf8 Lexer AST.

Inductive level := June2018 | Lenient | Any.
Definition lenient (lv : level) : Prop := lv <> June2018.

Definition G (A : Type) : Type := list token -> A -> list token -> Prop.

(** A terminal: one token of the given kind and literal, wherever it stands. *)
Inductive terminal (k : kind) (lit : bytes) : list token -> list token -> Prop :=
| terminal_intro l c r : terminal k lit (mkTok k lit l c :: r) r.
Notation pun s := (terminal KPunct (B s)).
Notation kw s := (terminal KName (B s)).
Notation name n := (terminal KName n).

Inductive many {A} (g : G A) : G (list A) :=
| many_nil ts : many g ts [] ts
| many_cons ts a r1 l r : g ts a r1 -> many g r1 l r -> many g ts (a :: l) r.
Definition many1 {A} (g : G A) : G (list A) := fun ts l r => many g ts l r /\ l <> [].
(** a s a s ... a *)
Inductive sep1 {A} (s : string) (g : G A) : G (list A) :=
| sep_one ts a r : g ts a r -> sep1 s g ts [a] r
| sep_more ts a r1 r2 l r : g ts a r1 -> pun s r1 r2 -> sep1 s g r2 l r -> sep1 s g ts (a :: l) r.
Definition maybe (s : string) (ts r : list token) : Prop := ts = r \/ pun s ts r.

(** ** Type references *)
Inductive g_type (lv : level) : G ty :=
| ty_named ts n r : name n ts r -> g_type lv ts (TNamed n false) r
| ty_named_nn ts n r1 r : name n ts r1 -> pun "!" r1 r -> g_type lv ts (TNamed n true) r
| ty_list ts r1 t r2 r : pun "[" ts r1 -> g_type lv r1 t r2 -> pun "]" r2 r -> g_type lv ts (TList t false) r
| ty_list_nn ts r1 t r2 r3 r :
    pun "[" ts r1 -> g_type lv r1 t r2 -> pun "]" r2 r3 -> pun "!" r3 r -> g_type lv ts (TList t true) r
(* broken: "[" where no type follows, or "[" "[" and a type that no "]" follows *)
| ty_open ts r : lv = Any -> pun "[" ts r -> (forall n r', ~ name n r r') -> (forall r', ~ pun "[" r r') -> g_type lv ts TListNil r
| ty_open_list ts r1 r2 t r :
    lv = Any -> pun "[" ts r1 -> pun "[" r1 r2 -> g_type lv r2 t r -> (forall r', ~ pun "]" r r') -> g_type lv ts TListNil r.

(** NamedType where the grammar allows nothing else: type conditions, operation types.  Relaxed: "Foo!". *)
Inductive g_named (lv : level) : G ty :=
| nm_plain ts n r : name n ts r -> g_named lv ts (TNamed n false) r
| nm_bang ts n r1 r : lenient lv -> name n ts r1 -> pun "!" r1 r -> g_named lv ts (TNamed n true) r.

(** Interfaces and union members: NamedType.  Relaxed: any type. *)
Inductive g_member (lv : level) : G ty :=
| mb_plain ts n r : name n ts r -> g_member lv ts (TNamed n false) r
| mb_any ts t r : lenient lv -> g_type lv ts t r -> g_member lv ts t r.

(** ** Values *)
Inductive digits_denote : bytes -> Z -> Prop :=
| dd_one b : (48 <= zb b <= 57)%Z -> digits_denote [b] (zb b - 48)
| dd_snoc s z b : digits_denote s z -> (48 <= zb b <= 57)%Z -> digits_denote (s ++ [b]) (10 * z + (zb b - 48)).
(** The integer a literal denotes.  (The lexer never produces a leading plus.) *)
Inductive int_denotes (lv : level) : bytes -> Z -> Prop :=
| id_pos s z : digits_denote s z -> int_denotes lv s z
| id_neg s z : digits_denote s z -> int_denotes lv ("-"%char :: s) (- z)
| id_plus s z : lenient lv -> digits_denote s z -> int_denotes lv ("+"%char :: s) z.
Definition int64 (z : Z) : Prop := (- 2 ^ 63 <= z < 2 ^ 63)%Z.

Section Grammar.
(** [fok lit]: the float literal is accepted by [strconv.ParseFloat] (it is in range). *)
Variable fok : bytes -> bool.
Variable lv : level.

(** Value[Const].  The supported subset: integers that fit in an int64, floats in range.
    Relaxed: variables also in constant values. *)
Inductive g_value (const : bool) : G value :=
| v_var ts r1 n r : const = false \/ lenient lv -> pun "$" ts r1 -> name n r1 r -> g_value const ts (VVar n) r
| v_int ts lit z r : terminal KInt lit ts r -> int_denotes lv lit z -> int64 z -> g_value const ts (VInt z) r
| v_float ts lit r : terminal KFloat lit ts r -> fok lit = true -> g_value const ts (VFloat lit) r
| v_string ts s r : terminal KString s ts r -> g_value const ts (VString s) r
| v_true ts r : kw "true" ts r -> g_value const ts (VBool true) r
| v_false ts r : kw "false" ts r -> g_value const ts (VBool false) r
| v_null ts r : kw "null" ts r -> g_value const ts VNull r
| v_enum ts n r : name n ts r -> n <> B "true" -> n <> B "false" -> n <> B "null" -> g_value const ts (VEnum n) r
| v_list ts r1 l r2 r : pun "[" ts r1 -> many (g_value const) r1 l r2 -> pun "]" r2 r -> g_value const ts (VList l) r
| v_object ts r1 fs r2 r :
    pun "{" ts r1 -> many (g_ofield const) r1 fs r2 -> pun "}" r2 r -> g_value const ts (VObject fs) r
with g_ofield (const : bool) : G (bytes * value) :=
| of_intro ts n r1 r2 v r : name n ts r1 -> pun ":" r1 r2 -> g_value const r2 v r -> g_ofield const ts (n, v) r.

Inductive g_default : G (option value) :=
| df_none ts : g_default ts None ts
| df_some ts r1 v r : pun "=" ts r1 -> g_value true r1 v r -> g_default ts (Some v) r.

(** ** Arguments (optional; relaxed: "()") and Directives *)
Inductive g_arg (const : bool) : G argument :=
| arg_intro ts n r1 r2 v r : name n ts r1 -> pun ":" r1 r2 -> g_value const r2 v r -> g_arg const ts (mkArg n v) r.
Inductive g_args (const : bool) : G (list argument) :=
| args_none ts : g_args const ts [] ts
| args_some ts r1 l r2 r :
    pun "(" ts r1 -> many (g_arg const) r1 l r2 -> pun ")" r2 r -> l <> [] \/ lenient lv -> g_args const ts l r.
Inductive g_dir (const : bool) (loc : dirloc) : G directive :=
| dir_intro ts r1 n r2 l r :
    pun "@" ts r1 -> name n r1 r2 -> g_args const r2 l r -> g_dir const loc ts (mkDir n l loc) r.
Definition g_dirs (const : bool) (loc : dirloc) : G (list directive) := many (g_dir const loc).

(** ** Selections *)
Inductive g_cond : G ty :=
| cond_intro ts r1 t r : kw "on" ts r1 -> g_named lv r1 t r -> g_cond ts t r.
Inductive g_opt_cond : G (option ty) :=
| oc_none ts : g_opt_cond ts None ts
| oc_some ts t r : g_cond ts t r -> g_opt_cond ts (Some t) r.
Inductive g_alias : G (bytes * bytes) :=
| al_none ts n r : name n ts r -> g_alias ts ([], n) r
| al_some ts a r1 r2 n r : name a ts r1 -> pun ":" r1 r2 -> name n r2 r -> g_alias ts (a, n) r.
Inductive g_sel : G selection :=
| sel_field ts al n r1 args r2 ds r3 ss r :
    g_alias ts (al, n) r1 -> g_args false r1 args r2 -> g_dirs false LField r2 ds r3 -> g_opt_selset r3 ss r ->
    g_sel ts (SField al n args ds ss) r
| sel_spread ts r1 n r2 ds r :
    pun "..." ts r1 -> name n r1 r2 -> n <> B "on" -> g_dirs false LFragmentSpread r2 ds r -> g_sel ts (SSpread n ds) r
| sel_inline ts r1 c r2 ds r3 ss r :
    pun "..." ts r1 -> g_opt_cond r1 c r2 -> g_dirs false LInlineFragment r2 ds r3 -> g_selset r3 ss r ->
    g_sel ts (SInline c ds ss) r
with g_selset : G (list selection) :=
| ss_intro ts r1 ss r2 r : pun "{" ts r1 -> many g_sel r1 ss r2 -> ss <> [] -> pun "}" r2 r -> g_selset ts ss r
with g_opt_selset : G (list selection) :=
| os_none ts : g_opt_selset ts [] ts
| os_some ts ss r : g_selset ts ss r -> g_opt_selset ts ss r.

(** ** Operations and fragments *)
Inductive g_vardef : G vardef :=
| vd_intro ts r1 n r2 r3 t r4 d r :
    pun "$" ts r1 -> name n r1 r2 -> pun ":" r2 r3 -> g_type lv r3 t r4 -> g_default r4 d r ->
    g_vardef ts (mkVar n t d) r.
Inductive g_vardefs : G (list vardef) :=
| vs_none ts : g_vardefs ts [] ts
| vs_some ts r1 l r2 r : pun "(" ts r1 -> many1 g_vardef r1 l r2 -> pun ")" r2 r -> g_vardefs ts l r.
Inductive g_opkind : G opkind :=
| ok_query ts r : kw "query" ts r -> g_opkind ts Query r
| ok_mutation ts r : kw "mutation" ts r -> g_opkind ts Mutation r
| ok_subscription ts r : kw "subscription" ts r -> g_opkind ts Subscription r.
Inductive g_opt_name : G bytes :=
| on_none ts : g_opt_name ts [] ts
| on_some ts n r : name n ts r -> g_opt_name ts n r.
Definition operation_location (k : opkind) : dirloc :=
  match k with Query => LQuery | Mutation => LMutation | Subscription => LSubscription end.
Inductive g_op : G opdef :=
| op_short ts ss r : g_selset ts ss r -> g_op ts (mkOp Query [] [] [] ss) r
| op_long ts k r1 n r2 vs r3 ds r4 ss r :
    g_opkind ts k r1 -> g_opt_name r1 n r2 -> g_vardefs r2 vs r3 -> g_dirs false (operation_location k) r3 ds r4 ->
    g_selset r4 ss r -> g_op ts (mkOp k n vs ds ss) r.
Inductive g_frag : G fragdef :=
| fr_intro ts r1 n r2 c r3 ds r4 ss r :
    kw "fragment" ts r1 -> name n r1 r2 -> n <> B "on" -> g_cond r2 c r3 -> g_dirs false LFragmentDefinition r3 ds r4 ->
    g_selset r4 ss r -> g_frag ts (mkFrag n c ds ss) r.

(** ** Type system *)
Inductive g_desc : G bytes :=
| de_none ts : g_desc ts [] ts
| de_some ts s r : terminal KString s ts r -> g_desc ts s r.
Inductive g_ivdef (loc : dirloc) : G ivdef :=
| iv_intro ts d r1 n r2 r3 t r4 dv r5 ds r :
    g_desc ts d r1 -> name n r1 r2 -> pun ":" r2 r3 -> g_type lv r3 t r4 -> g_default r4 dv r5 ->
    g_dirs true loc r5 ds r -> g_ivdef loc ts (mkIv d n t dv ds) r.
Inductive g_argdefs : G (list ivdef) :=
| ad_none ts : g_argdefs ts [] ts
| ad_some ts r1 l r2 r :
    pun "(" ts r1 -> many1 (g_ivdef LArgumentDefinition) r1 l r2 -> pun ")" r2 r -> g_argdefs ts l r.
Inductive g_fielddef : G fielddef :=
| fd_intro ts d r1 n r2 args r3 r4 t r5 ds r :
    g_desc ts d r1 -> name n r1 r2 -> g_argdefs r2 args r3 -> pun ":" r3 r4 -> g_type lv r4 t r5 ->
    g_dirs true LFieldDefinition r5 ds r -> g_fielddef ts (mkFd d n args t ds) r.
Inductive g_enumval : G enumval :=
| ev_intro ts d r1 n r2 ds r :
    g_desc ts d r1 -> name n r1 r2 -> n <> B "true" -> n <> B "false" -> n <> B "null" ->
    g_dirs true LEnumValue r2 ds r -> g_enumval ts (mkEv d n ds) r.
(** an optional block "{" item+ "}" *)
Inductive g_block {A} (g : G A) : G (list A) :=
| bl_none ts : g_block g ts [] ts
| bl_some ts r1 l r2 r : pun "{" ts r1 -> many1 g r1 l r2 -> pun "}" r2 r -> g_block g ts l r.
Inductive g_implements : G (list ty) :=
| im_none ts : g_implements ts [] ts
| im_some ts r1 r2 l r : kw "implements" ts r1 -> maybe "&" r1 r2 -> sep1 "&" (g_member lv) r2 l r -> g_implements ts l r.
Inductive g_members : G (list ty) :=
| me_none ts : g_members ts [] ts
| me_some ts r1 r2 l r : pun "=" ts r1 -> maybe "|" r1 r2 -> sep1 "|" (g_member lv) r2 l r -> g_members ts l r.

(** A type definition without its description, which is given. *)
Inductive g_tydef (desc : bytes) : G tydef :=
| td_scalar ts r1 n r2 ds r :
    kw "scalar" ts r1 -> name n r1 r2 -> g_dirs true LScalar r2 ds r ->
    g_tydef desc ts (mkTd KScalar desc n [] ds [] [] [] []) r
| td_object ts r1 n r2 im r3 ds r4 fs r :
    kw "type" ts r1 -> name n r1 r2 -> g_implements r2 im r3 -> g_dirs true LObject r3 ds r4 ->
    g_block g_fielddef r4 fs r -> g_tydef desc ts (mkTd KObject desc n im ds fs [] [] []) r
| td_interface ts r1 n r2 ds r4 fs r :
    kw "interface" ts r1 -> name n r1 r2 -> g_dirs true LInterface r2 ds r4 ->
    g_block g_fielddef r4 fs r -> g_tydef desc ts (mkTd KInterface desc n [] ds fs [] [] []) r
| td_union ts r1 n r2 ds r4 ms r :
    kw "union" ts r1 -> name n r1 r2 -> g_dirs true LUnion r2 ds r4 ->
    g_members r4 ms r -> g_tydef desc ts (mkTd KUnion desc n [] ds [] ms [] []) r
| td_enum ts r1 n r2 ds r4 vs r :
    kw "enum" ts r1 -> name n r1 r2 -> g_dirs true LEnum r2 ds r4 ->
    g_block g_enumval r4 vs r -> g_tydef desc ts (mkTd KEnum desc n [] ds [] [] vs []) r
| td_input ts r1 n r2 ds r4 is r :
    kw "input" ts r1 -> name n r1 r2 -> g_dirs true LInputObject r2 ds r4 ->
    g_block (g_ivdef LInputFieldDefinition) r4 is r -> g_tydef desc ts (mkTd KInputObject desc n [] ds [] [] [] is) r.
(** An extension must add something (relaxed: it need not). *)
Definition adds_something (t : tydef) : Prop :=
  t_impl t <> [] \/ t_dirs t <> [] \/ t_fields t <> [] \/ t_members t <> [] \/ t_values t <> [] \/ t_inputs t <> [].

Inductive g_optype : G optype :=
| ot_intro ts k r1 r2 t r : g_opkind ts k r1 -> pun ":" r1 r2 -> g_named lv r2 t r -> g_optype ts (mkOt k t) r.
Inductive g_schema : G schemadef :=
| sd_intro ts r1 ds r2 r3 ops r4 r :
    kw "schema" ts r1 -> g_dirs true LSchema r1 ds r2 -> pun "{" r2 r3 -> many1 g_optype r3 ops r4 -> pun "}" r4 r ->
    g_schema ts (mkSd ds ops) r.
Inductive g_schemaext : G schemadef :=
| se_intro ts r1 ds r2 ops r :
    kw "schema" ts r1 -> g_dirs true LSchema r1 ds r2 -> g_block g_optype r2 ops r -> ds <> [] \/ ops <> [] ->
    g_schemaext ts (mkSd ds ops) r.

(** DirectiveLocation: one of the listed names (relaxed: also VARIABLE_DEFINITION, which is not in June 2018). *)
Inductive g_dirloc : G bytes :=
| dl_intro ts n r : name n ts r -> In n location_names -> n <> B "VARIABLE_DEFINITION" \/ lenient lv -> g_dirloc ts n r.
(** the set of the listed locations as bits: bit [i] stands for the [i]-th name of [location_names] *)
Definition locations_denote (ns : list bytes) (l : dirloc) : Prop :=
  forall i : nat, N.testbit l (N.of_nat i) = true <-> exists n, In n ns /\ nth_error location_names i = Some n.
Inductive g_dirdef (desc : bytes) : G dirdef :=
| dd_intro ts r1 r2 n r3 args r4 r5 r6 ns l r :
    kw "directive" ts r1 -> pun "@" r1 r2 -> name n r2 r3 -> g_argdefs r3 args r4 -> kw "on" r4 r5 ->
    maybe "|" r5 r6 -> sep1 "|" g_dirloc r6 ns r -> locations_denote ns l ->
    g_dirdef desc ts (mkDd desc n args l) r.

(** ** Definitions and documents *)
Inductive g_body : G body :=
| b_op ts o r : g_op ts o r -> g_body ts (DOp o) r
| b_frag ts f r : g_frag ts f r -> g_body ts (DFrag f) r
| b_schema ts s r : g_schema ts s r -> g_body ts (DSchema s) r
(* relaxed: an empty description before a schema definition *)
| b_schema_desc ts r1 s r : lenient lv -> terminal KString [] ts r1 -> g_schema r1 s r -> g_body ts (DSchema s) r
| b_type ts d r1 t r : g_desc ts d r1 -> g_tydef d r1 t r -> g_body ts (DType t) r
| b_dir ts d r1 x r : g_desc ts d r1 -> g_dirdef d r1 x r -> g_body ts (DDir x) r
| b_xschema ts r1 s r : kw "extend" ts r1 -> g_schemaext r1 s r -> g_body ts (XSchema s) r
| b_xtype ts r1 t r : kw "extend" ts r1 -> g_tydef [] r1 t r -> adds_something t \/ lenient lv -> g_body ts (XType t) r.
End Grammar.

(** The first token of a definition is its location. *)
Inductive g_def (fok : bytes -> bool) (lv : level) : G definition :=
| def_intro t ts b r : g_body fok lv (t :: ts) b r -> g_def fok lv (t :: ts) (mkDef (tline t) (tcol t) b) r.

(** A definition that could have been continued with a "{ ... }" block but was not. *)
Definition block_omitted (b : body) : Prop :=
  match b with
  | DType t | XType t =>
      match t_kind t with
      | KObject | KInterface => t_fields t = []
      | KEnum => t_values t = []
      | KInputObject => t_inputs t = []
      | _ => False
      end
  | XSchema s => s_ops s = []
  | _ => False
  end.
(** June 2018 leaves "type A {a}" ambiguous (a type with a bad block, or a type followed by a query); like
    graphql-js and the later editions of the specification ("lookahead != {") the longest match is meant. *)
Definition longest_match (d : definition) (r : list token) : Prop := block_omitted (def_body d) -> ~ exists r', pun "{" r r'.
Inductive g_defs (fok : bytes -> bool) (lv : level) : G (list definition) :=
| ds_one ts d r : g_def fok lv ts d r -> longest_match d r -> g_defs fok lv ts [d] r
| ds_more ts d r1 l r : g_def fok lv ts d r1 -> longest_match d r1 -> g_defs fok lv r1 l r -> g_defs fok lv ts (d :: l) r.

(** The token sequence [ts] is a document: definitions up to the EOF token. *)
Definition g_document (fok : bytes -> bool) (lv : level) (ts : list token) (ds : list definition) : Prop :=
  exists e, tkind e = KEOF /\ g_defs fok lv ts ds [e].
