(** * ParserDepth: the parser of Parser.v once more, with the depth of the recursion made visible.
    In Parser.v one number bounds both the iterations of the loops and the depth of the recursive calls.  Here they are separate:
    [n] bounds the iterations, and [k] is the number of calls of parseType, parseValue and parseSelectionSet (the three functions
    of parser.go that call themselves, directly or through parseField and parseInlineFragment) that may be active at the same
    time: each of them passes [k - 1] on to everything it calls.  A call for which there is no room is the crash [OutOfFuel].
    Apart from that every definition is that of Parser.v, function by function, and cites the same lines. *)
From Verif Require Import Base Utf8 Lexer AST Parser.
Local Open Scope p_scope.

Section Depth.
(** [strconv.ParseFloat(lit, 64)] returns no error on [lit]. *)
Variable fok : bytes -> bool.

(** parser.go:700-733 [parseType].  Note the swallowed error (708-711). *)
Fixpoint parse_type_d (n k : nat) : P ty :=
  match k with
  | O => pcrash OutOfFuel
  | S k =>
      b <- skip1 KPunct "[" ;;
      if b then
        fun ts => match parse_type_d n k ts with
                  | POk it r =>
                      (must1 KPunct "]" ;;; nn <- skip1 KPunct "!" ;; pret (TList it nn)) r
                  | PErr _ r => POk TListNil r
                  | PCrash c => PCrash c
                  end
      else
        t <- must0 KName ;; nn <- skip1 KPunct "!" ;; pret (TNamed (tlit t) nn)
  end.

(** parser.go:586-697 [parseValue].  The errors of strconv are returned as they are (lines 601-603, 613-615). *)
Fixpoint parse_value_d (n k : nat) : P value :=
  match k with
  | O => pcrash OutOfFuel
  | S k =>
      b <- skip1 KPunct "$" ;;
      if b then t <- must0 KName ;; pret (VVar (tlit t)) else
      o <- consume0 KInt ;;
      match o with
      | Some t => match atoi (tlit t) with
                  | Some z => pret (VInt z)
                  | None => pfail (number_error (B "Atoi") (tlit t))
                  end
      | None =>
      o <- consume0 KFloat ;;
      match o with
      | Some t => if fok (tlit t) then pret (VFloat (tlit t))
                  else pfail (number_error (B "ParseFloat") (tlit t))
      | None =>
      o <- consume0 KString ;;
      match o with
      | Some t => pret (VString (tlit t))
      | None =>
      o <- consume (isn KName [B "true"; B "false"]) ;;
      match o with
      | Some t => pret (VBool (beqb (tlit t) (B "true")))
      | None =>
      b <- skip1 KName "null" ;;
      if b then pret VNull else
      o <- consume0 KName ;;
      match o with
      | Some t => pret (VEnum (tlit t))
      | None =>
      b <- skip1 KPunct "[" ;;
      if b then l <- loop_until n (skip1 KPunct "]") (parse_value_d n k) ;; pret (VList l) else
      b <- skip1 KPunct "{" ;;
      if b then l <- loop_until n (skip1 KPunct "}") (parse_object_field (parse_value_d n k)) ;; pret (VObject l) else
      pfail (B "TODO: see `parseDefinition`")
      end end end end end
  end.

(** parser.go:572-583 [parseDefaultValue]. *)
Definition parse_default_d (n k : nat) : P (option value) :=
  b <- skip1 KPunct "=" ;;
  if b then v <- parse_value_d n k ;; pret (Some v) else pret None.

(** parser.go:538-569 [parseArguments]. *)
Definition parse_argument_d (n k : nat) : P argument :=
  t <- must0 KName ;; must1 KPunct ":" ;;; v <- parse_value_d n k ;; pret (mkArg (tlit t) v).
Definition parse_arguments_d (n k : nat) : P (list argument) :=
  b <- skip1 KPunct "(" ;;
  if b then loop_until n (skip1 KPunct ")") (parse_argument_d n k) else pret [].

(** parser.go:352-384 [parseDirectives]. *)
Definition parse_directive_d (n k : nat) (l : dirloc) : P directive :=
  must1 KPunct "@" ;;; t <- must0 KName ;; args <- parse_arguments_d n k ;; pret (mkDir (tlit t) args l).
Definition parse_directives_d (n k : nat) (l : dirloc) : P (list directive) :=
  loop_until n (pnot (peek1 KPunct "@")) (parse_directive_d n k l).

(** parser.go:281-300 [parseTypeCondition]. *)
Definition parse_type_condition_d (n k : nat) : P ty :=
  must1 KName "on" ;;; t <- parse_type_d n k ;; named_only t.

(** parser.go:437-455 [parseFragmentSpread]. *)
Definition parse_spread_d (n k : nat) : P selection :=
  t <- must0 KName ;; ds <- parse_directives_d n k LFragmentSpread ;; pret (SSpread (tlit t) ds).

(** parser.go:458-486 [parseInlineFragment]; [selset] is [parseSelectionSet]. *)
Definition parse_inline_d (n k : nat) (selset : bool -> P (list selection)) : P selection :=
  b <- peek1 KName "on" ;;
  c <- (if b then t <- parse_type_condition_d n k ;; pret (Some t) else pret None) ;;
  ds <- parse_directives_d n k LInlineFragment ;;
  ss <- selset false ;;
  pret (SInline c ds ss).

(** parser.go:489-535 [parseField]. *)
Definition parse_field_d (n k : nat) (selset : bool -> P (list selection)) : P selection :=
  t <- must0 KName ;;
  b <- skip1 KPunct ":" ;;
  an <- (if b then t2 <- must0 KName ;; pret (tlit t, tlit t2) else pret ([], tlit t)) ;;
  args <- parse_arguments_d n k ;;
  ds <- parse_directives_d n k LField ;;
  ss <- selset true ;;
  pret (SField (fst an) (snd an) args ds ss).

(** parser.go:399-419: one iteration of [parseSelectionSet]. *)
Definition parse_selection_d (n k : nat) (selset : bool -> P (list selection)) : P selection :=
  b <- skip1 KPunct "..." ;;
  if b then
    s <- peek (fun t => is0 KName t && negb (beqb (tlit t) (B "on"))) ;;
    if s then parse_spread_d n k else parse_inline_d n k selset
  else parse_field_d n k selset.

(** parser.go:387-434 [parseSelectionSet]. *)
Fixpoint parse_selset_d (n k : nat) (optional : bool) : P (list selection) :=
  match k with
  | O => pcrash OutOfFuel
  | S k =>
      b <- skip1 KPunct "{" ;;
      if b then
        ss <- do_loop n (parse_selection_d n k (parse_selset_d n k)) (at_close "}") ;;
        must1 KPunct "}" ;;; pret ss
      else if optional then pret [] else perr [want KPunct "{"]
  end.

(** parser.go:303-349 [parseVariableDefinitions]. *)
Definition parse_vardef_d (n k : nat) : P vardef :=
  must1 KPunct "$" ;;; t <- must0 KName ;; must1 KPunct ":" ;;;
  y <- parse_type_d n k ;; d <- parse_default_d n k ;; pret (mkVar (tlit t) y d).
Definition parse_vardefs_d (n k : nat) : P (list vardef) :=
  b <- skip1 KPunct "(" ;;
  if b then
    l <- do_loop n (parse_vardef_d n k) (peek1 KPunct ")") ;; must1 KPunct ")" ;;; pret l
  else pret [].

(** parser.go:164-220 [parseOperationDefinition]. *)
Definition parse_operation_d (n k : nat) (shorthand : bool) : P body :=
  if shorthand then
    ss <- parse_selset_d n k false ;; pret (DOp (mkOp Query [] [] [] ss))
  else
    q <- parse_optype ;;
    o <- consume0 KName ;;
    vs <- parse_vardefs_d n k ;;
    ds <- parse_directives_d n k (op_location q) ;;
    ss <- parse_selset_d n k false ;;
    pret (DOp (mkOp q (match o with Some t => tlit t | None => [] end) vs ds ss)).

(** parser.go:240-278 [parseFragmentDefinition]; [None] is the nil pointer returned without an error (241-248). *)
Definition parse_fragment_d (n k : nat) : P (option body) :=
  b <- skip1 KName "fragment" ;;
  if negb b then pret None else
  o <- consume0 KName ;;
  match o with
  | None => pret None
  | Some t =>
      if beqb (tlit t) (B "on") then perr [want KName "!on"] else
      c <- parse_type_condition_d n k ;;
      ds <- parse_directives_d n k LFragmentDefinition ;;
      ss <- parse_selset_d n k false ;;
      pret (Some (DFrag (mkFrag (tlit t) c ds ss)))
  end.

(** parser.go:1091-1132 [parseInputValueDefinition]. *)
Definition parse_ivdef_d (n k : nat) (l : dirloc) : P ivdef :=
  d <- parse_desc ;; t <- must0 KName ;; need KPunct ":" ;;;
  y <- parse_type_d n k ;; dv <- parse_default_d n k ;; ds <- parse_directives_d n k l ;;
  pret (mkIv d (tlit t) y dv ds).

(** parser.go:1062-1088 [parseArgumentsDefinition]. *)
Definition parse_argdefs_d (n k : nat) : P (list ivdef) :=
  b <- skip1 KPunct "(" ;;
  if b then
    l <- do_loop n (parse_ivdef_d n k LArgumentDefinition) (at_close ")") ;; must1 KPunct ")" ;;; pret l
  else pret [].

(** parser.go:1373-1430 [parseFieldsDefinition]. *)
Definition parse_fielddef_d (n k : nat) : P fielddef :=
  d <- parse_desc ;; t <- must0 KName ;; args <- parse_argdefs_d n k ;; need KPunct ":" ;;;
  y <- parse_type_d n k ;; ds <- parse_directives_d n k LFieldDefinition ;;
  pret (mkFd d (tlit t) args y ds).
Definition parse_fielddefs_d (n k : nat) : P (list fielddef) :=
  b <- skip1 KPunct "{" ;;
  if b then do_loop n (parse_fielddef_d n k) (skip1 KPunct "}") else pret [].

(** parser.go:1459-1501 [parseEnumValuesDefinition]. *)
Definition parse_enumval_d (n k : nat) : P enumval :=
  d <- parse_desc ;; t <- must0 KName ;;
  if inb (tlit t) [B "false"; B "true"; B "null"] then pfail (unexpected t [want KName "valid enum value"]) else
  ds <- parse_directives_d n k LEnumValue ;;
  pret (mkEv d (tlit t) ds).
Definition parse_enumvals_d (n k : nat) : P (list enumval) :=
  b <- skip1 KPunct "{" ;;
  if b then do_loop n (parse_enumval_d n k) (skip1 KPunct "}") else pret [].

(** parser.go:1504-1526 [parseInputFieldsDefinition]. *)
Definition parse_inputs_d (n k : nat) : P (list ivdef) :=
  b <- skip1 KPunct "{" ;;
  if b then do_loop n (parse_ivdef_d n k LInputFieldDefinition) (skip1 KPunct "}") else pret [].

(** parser.go:1347-1370 [parseImplementsInterfaces], parser.go:1433-1456 [parseUnionMemberTypes]. *)
Definition parse_implements_d (n k : nat) : P (list ty) :=
  b <- skip1 KName "implements" ;;
  if b then skip1 KPunct "&" ;;; do_loop n (parse_type_d n k) (pnot (skip1 KPunct "&")) else pret [].
Definition parse_members_d (n k : nat) : P (list ty) :=
  b <- skip1 KPunct "=" ;;
  if b then skip1 KPunct "|" ;;; do_loop n (parse_type_d n k) (pnot (skip1 KPunct "|")) else pret [].

(** parser.go:1172-1344 [parseTypeDefinition] and the six functions it calls; parser.go:737-829 [parseTypeExtension].
    Both read name, [implements] (objects only), directives and the part that belongs to the kind, in that order.  The fall-through for
    another keyword (nil in Go) cannot happen (C11); here it is a crash. *)
Definition parse_typebody_d (n k : nat) (desc : bytes) : P tydef :=
  kt <- must0 KName ;;
  match kind_of_kw (tlit kt) with
  | None => pcrash NilDeref
  | Some q =>
      t <- must0 KName ;;
      im <- (match q with KObject => parse_implements_d n k | _ => pret [] end) ;;
      ds <- parse_directives_d n k (kind_location q) ;;
      fs <- (match q with KObject | KInterface => parse_fielddefs_d n k | _ => pret [] end) ;;
      ms <- (match q with KUnion => parse_members_d n k | _ => pret [] end) ;;
      vs <- (match q with KEnum => parse_enumvals_d n k | _ => pret [] end) ;;
      is <- (match q with KInputObject => parse_inputs_d n k | _ => pret [] end) ;;
      pret (mkTd q desc (tlit t) im ds fs ms vs is)
  end.

(** parser.go:942-967 = 1024-1049: one operation type definition. *)
Definition parse_optypedef_d (n k : nat) : P optype :=
  q <- parse_optype ;; need KPunct ":" ;;; y <- parse_type_d n k ;; y <- named_only y ;; pret (mkOt q y).
(** parser.go:1017-1059 [parseOperationTypeDefinitions] (also inlined at 938-978). *)
Definition parse_optypedefs_d (n k : nat) : P (list optype) :=
  need KPunct "{" ;;; l <- do_loop n (parse_optypedef_d n k) (at_close "}") ;; must1 KPunct "}" ;;; pret l.

(** parser.go:930-984 [parseSchemaDefinition]. *)
Definition parse_schemadef_d (n k : nat) : P schemadef :=
  need KName "schema" ;;; ds <- parse_directives_d n k LSchema ;; ops <- parse_optypedefs_d n k ;; pret (mkSd ds ops).

(** parser.go:988-1015 [parseSchemaExtension]. *)
Definition parse_schemaext_d (n k : nat) : P schemadef :=
  need KName "schema" ;;; ds <- parse_directives_d n k LSchema ;;
  b <- peek1 KPunct "{" ;;
  ops <- (if b then parse_optypedefs_d n k else pret []) ;;
  match ds, ops with [], [] => perr [] | _, _ => pret (mkSd ds ops) end.

(** parser.go:1550-1571 [parseDirectiveLocations]: the set of the listed locations, as bits. *)
Definition parse_dirlocs_d (n k : nat) : P dirloc :=
  skip1 KPunct "|" ;;; l <- do_loop n parse_dirloc (pnot (skip1 KPunct "|")) ;; pret (fold_left N.lor l 0%N).

(** parser.go:1135-1169 [parseDirectiveDefinition]. *)
Definition parse_dirdef_d (n k : nat) (desc : bytes) : P dirdef :=
  b <- skip1 KName "directive" ;;
  if negb b then pcrash NilDeref else
  need KPunct "@" ;;; t <- must0 KName ;; args <- parse_argdefs_d n k ;; need KName "on" ;;;
  ls <- parse_dirlocs_d n k ;; pret (mkDd desc (tlit t) args ls).

(** parser.go:832-881 [parseTypeSystemDefinition].  The last fall-through (an empty definition) cannot happen. *)
Definition parse_tsdef_d (n k : nat) (desc : bytes) : P body :=
  b <- peek1 KName "schema" ;;
  if b then s <- parse_schemadef_d n k ;; pret (DSchema s) else
  b <- peek1 KName "directive" ;;
  if b then d <- parse_dirdef_d n k desc ;; pret (DDir d) else
  b <- peekn KName type_kws ;;
  if b then t <- parse_typebody_d n k desc ;; pret (DType t) else
  pcrash NilDeref.

(** parser.go:885-927 [parseTypeSystemExtension]. *)
Definition parse_tsext_d (n k : nat) : P body :=
  need KName "extend" ;;;
  b <- peek1 KName "schema" ;;
  if b then s <- parse_schemaext_d n k ;; pret (XSchema s) else
  b <- peekn KName type_kws ;;
  if b then t <- parse_typebody_d n k [] ;; pret (XType t) else
  perr [expected KName (map B ("schema"%string :: type_kws))].

(** parser.go:91-161 [parseDefinition].  [None]: a definition whose ExecutableDefinition is nil. *)
Definition parse_body_d (n k : nat) : P (option body) :=
  t <- tok ;;
  let shorthand := beqb (tlit t) (B "{") in
  if isn KName [B "query"; B "mutation"; B "subscription"] t || is1 KPunct (B "{") t then
    b <- parse_operation_d n k shorthand ;; pret (Some b)
  else if is1 KName (B "fragment") t then parse_fragment_d n k
  else if is1 KName (B "extend") t then b <- parse_tsext_d n k ;; pret (Some b)
  else
    d <- parse_desc ;;
    b <- peekn KName (tsdef_kws d) ;;
    if b then b <- parse_tsdef_d n k d ;; pret (Some b)
    else perr [expected KName (map B ["query"; "mutation"; "fragment"]%string); want KPunct "{"].
Definition parse_definition_d (n k : nat) : P (option definition) :=
  t <- tok ;; o <- parse_body_d n k ;; pret (option_map (mkDef (tline t) (tcol t)) o).

(** parser.go:27-88 [Parse]: the loop; [definition.ExecutableDefinition.Kind] at line 47 dereferences a nil pointer
    when [parseDefinition] returned one. *)
Fixpoint parse_loop_d (n k m : nat) (c : counts) : P (list definition * counts) :=
  match m with
  | O => pcrash OutOfFuel
  | S m =>
      o <- parse_definition_d n k ;;
      match o with
      | None => pcrash NilDeref
      | Some d =>
          let c := count_def c (def_body d) in
          i <- peek0 KIllegal ;;
          if i then perr [] else
          e <- peek0 KEOF ;;
          if e then pret ([d], c) else
          x <- parse_loop_d n k m c ;; pret (d :: fst x, snd x)
      end
  end.

Definition parse_tokens_d (k : nat) (ts : list token) : pres document :=
  (x <- parse_loop_d (List.length ts) k (List.length ts) (mkC 0 0 0 0 0 0 []) ;; pret (doc_of x)) ts.

(** [NewParser(input).Parse()] when at most [k] calls of the three recursive functions may be active at a time. *)
Definition parse_within (k : nat) (input : bytes) : result :=
  match lex_all input with
  | Ok ts _ =>
      match parse_tokens_d k ts with
      | POk d _ => Doc d
      | PErr e _ => Error e
      | PCrash NilDeref => GoPanic
      | PCrash _ => Diverges
      end
  | Panic => GoPanic
  | Fuel => Diverges
  end.
End Depth.
