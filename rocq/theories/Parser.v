(** * Parser: model of language/parser.go. *)
From Verif Require Import Base Utf8 Lexer AST.

(** ** State and results.
    The parser state is the list of tokens the lexer still has to deliver; its head is [p.token].  The list ends with
    the first EOF or Illegal token (Lexer.v, [lex_all]).  [p.lexer.Scan()] moves to the tail; scanning when the tail is
    empty — past the EOF/Illegal token — is the crash [Over].  A nil dereference is the crash [NilDeref], exhausted
    fuel the crash [OutOfFuel]. *)
Inductive crash := NilDeref | Over | OutOfFuel.
Inductive pres (A : Type) : Type :=
| POk (a : A) (r : list token)
| PErr (msg : bytes) (r : list token)
| PCrash (c : crash).
Arguments POk {A} _ _. Arguments PErr {A} _ _. Arguments PCrash {A} _.

Definition P (A : Type) : Type := list token -> pres A.
Definition pret {A} (a : A) : P A := fun ts => POk a ts.
Definition pbind {A C} (m : P A) (k : A -> P C) : P C :=
  fun ts => match m ts with POk a r => k a r | PErr e r => PErr e r | PCrash c => PCrash c end.
Definition pfail {A} (e : bytes) : P A := fun ts => PErr e ts.
Definition pcrash {A} (c : crash) : P A := fun _ => PCrash c.

Declare Scope p_scope.
Delimit Scope p_scope with p.
Notation "x <- m ;; k" := (pbind m (fun x => k)) (at level 61, m at next level, right associativity) : p_scope.
Notation "m ;;; k" := (pbind m (fun _ => k)) (at level 61, right associativity) : p_scope.
Local Open Scope p_scope.

(** [p.token] *)
Definition tok : P token := fun ts => match ts with t :: _ => POk t ts | [] => PCrash Over end.
(** [p.token = p.lexer.Scan()] *)
Definition advance : P unit := fun ts => match ts with _ :: ((_ :: _) as r) => POk tt r | _ => PCrash Over end.

(** ** parser.go:1722-1766 [expected], [unexpected]. *)
Definition expected (k : kind) (ls : list bytes) : bytes :=
  kind_name k ++ B " '" ++ joinb (B "|") ls ++ B "'".
Definition unexpected (t : token) (wants : list bytes) : bytes :=
  B "parser error: unexpected token found at line: " ++ itoa (Z.of_nat (tline t)) ++ B ", column: " ++ itoa (tcol t)
  ++ B ". Found: " ++ kind_name (tkind t) ++ B " '" ++ tlit t ++ B "'."
  ++ (match wants with [] => [] | _ => B " Wanted: " ++ joinb (B " or ") wants ++ B "." end).
(** [return ..., p.unexpected(p.token, ...)] *)
Definition perr {A} (wants : list bytes) : P A := t <- tok ;; pfail (unexpected t wants).

(** ** parser.go:1576-1720 — consuming and peeking. *)
Definition is0 (k : kind) (t : token) : bool := kind_eqb (tkind t) k.
Definition is1 (k : kind) (l : bytes) (t : token) : bool := kind_eqb (tkind t) k && beqb (tlit t) l.
(** [peekn]/[consumen] with at least one literal (every call in parser.go has some). *)
Definition isn (k : kind) (ls : list bytes) (t : token) : bool := kind_eqb (tkind t) k && inb (tlit t) ls.

(** parser.go:1664-1692 [peek0], [peek1], [peekn]. *)
Definition peek (p : token -> bool) : P bool := t <- tok ;; pret (p t).
(** parser.go:1580-1625 [consume0], [consume1], [consumen]: the token if it matches. *)
Definition consume (p : token -> bool) : P (option token) :=
  t <- tok ;; if p t then advance ;;; pret (Some t) else pret None.
(** parser.go:1694-1710 [skip0], [skip1]. *)
Definition skip (p : token -> bool) : P bool :=
  t <- tok ;; if p t then advance ;;; pret true else pret false.
(** parser.go:1627-1662 [mustConsume0], [mustConsume1], [mustConsumen]. *)
Definition must (p : token -> bool) (want : bytes) : P token :=
  t <- tok ;; if p t then advance ;;; pret t else pfail (unexpected t [want]).

Definition skip1 (k : kind) (l : string) : P bool := skip (is1 k (B l)).
Definition peek0 (k : kind) : P bool := peek (is0 k).
Definition peek1 (k : kind) (l : string) : P bool := peek (is1 k (B l)).
Definition peekn (k : kind) (ls : list string) : P bool := peek (isn k (map B ls)).
Definition consume0 (k : kind) : P (option token) := consume (is0 k).
Definition must0 (k : kind) : P token := must (is0 k) (expected k []).
Definition must1 (k : kind) (l : string) : P token := must (is1 k (B l)) (expected k [B l]).
Definition mustn (k : kind) (ls : list bytes) : P token := must (isn k ls) (expected k ls).
Definition want (k : kind) (l : string) : bytes := expected k [B l].

(** ** Loop shapes of parser.go.
    [loop_until n close body]: [for !close { body }].
    [do_loop n body fin]:      [for { body; if fin { break } }].
    The elements are collected in source order: the Go code prepends with [Add] and ends with [Reverse]
    (LinkedList.v), or appends to a slice. *)
Fixpoint loop_until {A} (n : nat) (close : P bool) (body : P A) : P (list A) :=
  match n with
  | O => pcrash OutOfFuel
  | S n =>
      c <- close ;;
      if c then pret [] else
      a <- body ;; l <- loop_until n close body ;; pret (a :: l)
  end.
Fixpoint do_loop {A} (n : nat) (body : P A) (fin : P bool) : P (list A) :=
  match n with
  | O => pcrash OutOfFuel
  | S n =>
      a <- body ;; c <- fin ;;
      if c then pret [a] else
      l <- do_loop n body fin ;; pret (a :: l)
  end.
Definition pnot (m : P bool) : P bool := b <- m ;; pret (negb b).
(** [p.peek1(Punctuator, c) || p.peek0(EOF)] *)
Definition at_close (c : string) : P bool :=
  b <- peek1 KPunct c ;; if b then pret true else peek0 KEOF.

(** ** strconv.Atoi on a 64-bit platform: an optional sign, at least one digit, only digits, and the value must fit
    in an int64. *)
Definition is_digit_b (b : byte) : bool := is_digit (zb b).
Fixpoint dec_value (acc : Z) (s : bytes) : option Z :=
  match s with
  | [] => Some acc
  | b :: s' => if is_digit_b b then dec_value (10 * acc + (zb b - 48))%Z s' else None
  end.
Definition dec_nat (s : bytes) : option Z := match s with [] => None | _ => dec_value 0 s end.
Definition in_int64 (z : Z) : bool := (Z.leb (- 9223372036854775808) z && Z.leb z 9223372036854775807)%Z.
Definition atoi (s : bytes) : option Z :=
  match (match s with
         | b :: s' => if Ascii.eqb b "-" then option_map Z.opp (dec_nat s')
                      else if Ascii.eqb b "+" then dec_nat s' else dec_nat s
         | [] => None
         end) with
  | Some z => if in_int64 z then Some z else None
  | None => None
  end.

(** The error text of [strconv.Atoi] and [strconv.ParseFloat] (standard library, strconv/atoi.go and atof.go as of Go 1.13): the literal
    quoted, and why it is refused.  [ParseUint] stops at the first byte that is not a digit (syntax) or at the first digit with
    which the value exceeds 2^64-1 (range), whichever comes first; when it gets to the end the value does not fit in an int64.
    SIMPLIFIED: bytes of the literal that [Quote] treats otherwise (quotation marks, backslashes, multi-byte characters) do not
    occur in a number, only digits and the like, NUL and a stray last byte do. *)
Definition quote_byte (b : byte) : bytes :=
  if (Z.leb 32 (zb b) && Z.ltb (zb b) 127)%Z then [b] else B "\x" ++ [lower_hex (zb b / 16)%Z; lower_hex (zb b mod 16)%Z].
Definition out_of_range : bytes := B "value out of range".
Definition bad_syntax : bytes := B "invalid syntax".
Fixpoint int_refused (acc : Z) (s : bytes) : bytes :=
  match s with
  | [] => out_of_range
  | b :: s' => if is_digit_b b
               then let n := (10 * acc + (zb b - 48))%Z in if Z.ltb 18446744073709551615 n then out_of_range else int_refused n s'
               else bad_syntax
  end.
Definition is_float_byte (b : byte) : bool := is_digit_b b || inb [b] [B "+"; B "-"; B "."; B "e"; B "E"].
Definition number_error (f lit : bytes) : bytes :=
  B "strconv." ++ f ++ B ": parsing """ ++ flat_map quote_byte lit ++ B """: "
  ++ (if beqb f (B "Atoi") then int_refused 0 (match lit with b :: l => if Ascii.eqb b "-" then l else lit | [] => lit end)
      else if forallb is_float_byte lit then out_of_range else bad_syntax).

Section Parse.
(** [strconv.ParseFloat(lit, 64)] returns no error on [lit]: a parameter, everything is proved for any such function. *)
Variable fok : bytes -> bool.

(** parser.go:700-733 [parseType].  Note the swallowed error (708-711). *)
Fixpoint parse_type (n : nat) : P ty :=
  match n with
  | O => pcrash OutOfFuel
  | S n =>
      b <- skip1 KPunct "[" ;;
      if b then
        fun ts => match parse_type n ts with
                  | POk it r =>
                      (must1 KPunct "]" ;;; nn <- skip1 KPunct "!" ;; pret (TList it nn)) r
                  | PErr _ r => POk TListNil r
                  | PCrash c => PCrash c
                  end
      else
        t <- must0 KName ;; nn <- skip1 KPunct "!" ;; pret (TNamed (tlit t) nn)
  end.

(** parser.go:586-697 [parseValue].  The errors of strconv are returned as they are (lines 601-603, 613-615). *)
Definition parse_object_field (pv : P value) : P (bytes * value) :=
  t <- must0 KName ;; must1 KPunct ":" ;;; v <- pv ;; pret (tlit t, v).
Fixpoint parse_value (n : nat) : P value :=
  match n with
  | O => pcrash OutOfFuel
  | S n =>
      b <- skip1 KPunct "$" ;;
      if b then t <- must0 KName ;; pret (VVar (tlit t)) else
      o <- consume0 KInt ;;
      match o with
      | Some t => match atoi (tlit t) with
                  | Some z => pret (VInt z)
                  | None => pfail (number_error (B "Atoi") (tlit t))
                  end
      | None =>
      o <- consume0 KFloat ;;
      match o with
      | Some t => if fok (tlit t) then pret (VFloat (tlit t))
                  else pfail (number_error (B "ParseFloat") (tlit t))
      | None =>
      o <- consume0 KString ;;
      match o with
      | Some t => pret (VString (tlit t))
      | None =>
      o <- consume (isn KName [B "true"; B "false"]) ;;
      match o with
      | Some t => pret (VBool (beqb (tlit t) (B "true")))
      | None =>
      b <- skip1 KName "null" ;;
      if b then pret VNull else
      o <- consume0 KName ;;
      match o with
      | Some t => pret (VEnum (tlit t))
      | None =>
      b <- skip1 KPunct "[" ;;
      if b then l <- loop_until n (skip1 KPunct "]") (parse_value n) ;; pret (VList l) else
      b <- skip1 KPunct "{" ;;
      if b then l <- loop_until n (skip1 KPunct "}") (parse_object_field (parse_value n)) ;; pret (VObject l) else
      pfail (B "TODO: see `parseDefinition`")
      end end end end end
  end.

(** parser.go:572-583 [parseDefaultValue]. *)
Definition parse_default (n : nat) : P (option value) :=
  b <- skip1 KPunct "=" ;;
  if b then v <- parse_value n ;; pret (Some v) else pret None.

(** parser.go:538-569 [parseArguments]. *)
Definition parse_argument (n : nat) : P argument :=
  t <- must0 KName ;; must1 KPunct ":" ;;; v <- parse_value n ;; pret (mkArg (tlit t) v).
Definition parse_arguments (n : nat) : P (list argument) :=
  b <- skip1 KPunct "(" ;;
  if b then loop_until n (skip1 KPunct ")") (parse_argument n) else pret [].

(** parser.go:352-384 [parseDirectives]. *)
Definition parse_directive (n : nat) (l : dirloc) : P directive :=
  must1 KPunct "@" ;;; t <- must0 KName ;; args <- parse_arguments n ;; pret (mkDir (tlit t) args l).
Definition parse_directives (n : nat) (l : dirloc) : P (list directive) :=
  loop_until n (pnot (peek1 KPunct "@")) (parse_directive n l).

(** parser.go:281-300 [parseTypeCondition]. *)
Definition named_only (t : ty) : P ty :=
  match t with TNamed _ _ => pret t | _ => perr [B "NamedType"] end.
Definition parse_type_condition (n : nat) : P ty :=
  must1 KName "on" ;;; t <- parse_type n ;; named_only t.

(** parser.go:437-455 [parseFragmentSpread]. *)
Definition parse_spread (n : nat) : P selection :=
  t <- must0 KName ;; ds <- parse_directives n LFragmentSpread ;; pret (SSpread (tlit t) ds).

(** parser.go:458-486 [parseInlineFragment]; [selset] is [parseSelectionSet]. *)
Definition parse_inline (n : nat) (selset : bool -> P (list selection)) : P selection :=
  b <- peek1 KName "on" ;;
  c <- (if b then t <- parse_type_condition n ;; pret (Some t) else pret None) ;;
  ds <- parse_directives n LInlineFragment ;;
  ss <- selset false ;;
  pret (SInline c ds ss).

(** parser.go:489-535 [parseField]. *)
Definition parse_field (n : nat) (selset : bool -> P (list selection)) : P selection :=
  t <- must0 KName ;;
  b <- skip1 KPunct ":" ;;
  an <- (if b then t2 <- must0 KName ;; pret (tlit t, tlit t2) else pret ([], tlit t)) ;;
  args <- parse_arguments n ;;
  ds <- parse_directives n LField ;;
  ss <- selset true ;;
  pret (SField (fst an) (snd an) args ds ss).

(** parser.go:399-419: one iteration of [parseSelectionSet]. *)
Definition parse_selection (n : nat) (selset : bool -> P (list selection)) : P selection :=
  b <- skip1 KPunct "..." ;;
  if b then
    s <- peek (fun t => is0 KName t && negb (beqb (tlit t) (B "on"))) ;;
    if s then parse_spread n else parse_inline n selset
  else parse_field n selset.

(** parser.go:387-434 [parseSelectionSet]. *)
Fixpoint parse_selset (n : nat) (optional : bool) : P (list selection) :=
  match n with
  | O => pcrash OutOfFuel
  | S n =>
      b <- skip1 KPunct "{" ;;
      if b then
        ss <- do_loop n (parse_selection n (parse_selset n)) (at_close "}") ;;
        must1 KPunct "}" ;;; pret ss
      else if optional then pret [] else perr [want KPunct "{"]
  end.

(** parser.go:303-349 [parseVariableDefinitions]. *)
Definition parse_vardef (n : nat) : P vardef :=
  must1 KPunct "$" ;;; t <- must0 KName ;; must1 KPunct ":" ;;;
  y <- parse_type n ;; d <- parse_default n ;; pret (mkVar (tlit t) y d).
Definition parse_vardefs (n : nat) : P (list vardef) :=
  b <- skip1 KPunct "(" ;;
  if b then
    l <- do_loop n (parse_vardef n) (peek1 KPunct ")") ;; must1 KPunct ")" ;;; pret l
  else pret [].

(** parser.go:223-237 [parseOperationType]. *)
Definition parse_optype : P opkind :=
  t <- mustn KName [B "query"; B "mutation"; B "subscription"] ;;
  pret (if beqb (tlit t) (B "query") then Query else if beqb (tlit t) (B "mutation") then Mutation else Subscription).
Definition op_location (k : opkind) : dirloc :=
  match k with Query => LQuery | Mutation => LMutation | Subscription => LSubscription end.

(** parser.go:164-220 [parseOperationDefinition]. *)
Definition parse_operation (n : nat) (shorthand : bool) : P body :=
  if shorthand then
    ss <- parse_selset n false ;; pret (DOp (mkOp Query [] [] [] ss))
  else
    k <- parse_optype ;;
    o <- consume0 KName ;;
    vs <- parse_vardefs n ;;
    ds <- parse_directives n (op_location k) ;;
    ss <- parse_selset n false ;;
    pret (DOp (mkOp k (match o with Some t => tlit t | None => [] end) vs ds ss)).

(** parser.go:240-278 [parseFragmentDefinition]; [None] is the nil pointer returned without an error (241-248). *)
Definition parse_fragment (n : nat) : P (option body) :=
  b <- skip1 KName "fragment" ;;
  if negb b then pret None else
  o <- consume0 KName ;;
  match o with
  | None => pret None
  | Some t =>
      if beqb (tlit t) (B "on") then perr [want KName "!on"] else
      c <- parse_type_condition n ;;
      ds <- parse_directives n LFragmentDefinition ;;
      ss <- parse_selset n false ;;
      pret (Some (DFrag (mkFrag (tlit t) c ds ss)))
  end.

(** parser.go:1091-1132 [parseInputValueDefinition]. *)
Definition parse_desc : P bytes :=
  o <- consume0 KString ;; pret (match o with Some t => tlit t | None => [] end).
(** [if !p.skip1(k, l) { return ..., p.unexpected(p.token, p.expected(k, l)) }] *)
Definition need (k : kind) (l : string) : P unit :=
  b <- skip1 k l ;; if b then pret tt else perr [want k l].
Definition parse_ivdef (n : nat) (l : dirloc) : P ivdef :=
  d <- parse_desc ;; t <- must0 KName ;; need KPunct ":" ;;;
  y <- parse_type n ;; dv <- parse_default n ;; ds <- parse_directives n l ;;
  pret (mkIv d (tlit t) y dv ds).

(** parser.go:1062-1088 [parseArgumentsDefinition]. *)
Definition parse_argdefs (n : nat) : P (list ivdef) :=
  b <- skip1 KPunct "(" ;;
  if b then
    l <- do_loop n (parse_ivdef n LArgumentDefinition) (at_close ")") ;; must1 KPunct ")" ;;; pret l
  else pret [].

(** parser.go:1373-1430 [parseFieldsDefinition]. *)
Definition parse_fielddef (n : nat) : P fielddef :=
  d <- parse_desc ;; t <- must0 KName ;; args <- parse_argdefs n ;; need KPunct ":" ;;;
  y <- parse_type n ;; ds <- parse_directives n LFieldDefinition ;;
  pret (mkFd d (tlit t) args y ds).
Definition parse_fielddefs (n : nat) : P (list fielddef) :=
  b <- skip1 KPunct "{" ;;
  if b then do_loop n (parse_fielddef n) (skip1 KPunct "}") else pret [].

(** parser.go:1459-1501 [parseEnumValuesDefinition]. *)
Definition parse_enumval (n : nat) : P enumval :=
  d <- parse_desc ;; t <- must0 KName ;;
  if inb (tlit t) [B "false"; B "true"; B "null"] then pfail (unexpected t [want KName "valid enum value"]) else
  ds <- parse_directives n LEnumValue ;;
  pret (mkEv d (tlit t) ds).
Definition parse_enumvals (n : nat) : P (list enumval) :=
  b <- skip1 KPunct "{" ;;
  if b then do_loop n (parse_enumval n) (skip1 KPunct "}") else pret [].

(** parser.go:1504-1526 [parseInputFieldsDefinition]. *)
Definition parse_inputs (n : nat) : P (list ivdef) :=
  b <- skip1 KPunct "{" ;;
  if b then do_loop n (parse_ivdef n LInputFieldDefinition) (skip1 KPunct "}") else pret [].

(** parser.go:1347-1370 [parseImplementsInterfaces], parser.go:1433-1456 [parseUnionMemberTypes]. *)
Definition parse_implements (n : nat) : P (list ty) :=
  b <- skip1 KName "implements" ;;
  if b then skip1 KPunct "&" ;;; do_loop n (parse_type n) (pnot (skip1 KPunct "&")) else pret [].
Definition parse_members (n : nat) : P (list ty) :=
  b <- skip1 KPunct "=" ;;
  if b then skip1 KPunct "|" ;;; do_loop n (parse_type n) (pnot (skip1 KPunct "|")) else pret [].

(** The kind keyword of a type definition or extension (parser.go:1178-1191, 757-770). *)
Definition kind_of_kw (s : bytes) : option tkindT :=
  if beqb s (B "scalar") then Some KScalar else if beqb s (B "type") then Some KObject
  else if beqb s (B "interface") then Some KInterface else if beqb s (B "union") then Some KUnion
  else if beqb s (B "enum") then Some KEnum else if beqb s (B "input") then Some KInputObject else None.
Definition kind_location (k : tkindT) : dirloc :=
  match k with KScalar => LScalar | KObject => LObject | KInterface => LInterface | KUnion => LUnion
             | KEnum => LEnum | KInputObject => LInputObject end.

(** parser.go:1172-1344 [parseTypeDefinition] and the six functions it calls; parser.go:737-829 [parseTypeExtension].
    Both read name, [implements] (objects only), directives and the part that belongs to the kind, in that order.  The fall-through for
    another keyword (nil in Go) cannot happen, see ParserProofs.v; here it is a crash. *)
Definition parse_typebody (n : nat) (desc : bytes) : P tydef :=
  kt <- must0 KName ;;
  match kind_of_kw (tlit kt) with
  | None => pcrash NilDeref
  | Some k =>
      t <- must0 KName ;;
      im <- (match k with KObject => parse_implements n | _ => pret [] end) ;;
      ds <- parse_directives n (kind_location k) ;;
      fs <- (match k with KObject | KInterface => parse_fielddefs n | _ => pret [] end) ;;
      ms <- (match k with KUnion => parse_members n | _ => pret [] end) ;;
      vs <- (match k with KEnum => parse_enumvals n | _ => pret [] end) ;;
      is <- (match k with KInputObject => parse_inputs n | _ => pret [] end) ;;
      pret (mkTd k desc (tlit t) im ds fs ms vs is)
  end.

(** parser.go:942-967 = 1024-1049: one operation type definition. *)
Definition parse_optypedef (n : nat) : P optype :=
  k <- parse_optype ;; need KPunct ":" ;;; y <- parse_type n ;; y <- named_only y ;; pret (mkOt k y).
(** parser.go:1017-1059 [parseOperationTypeDefinitions] (also inlined at 938-978). *)
Definition parse_optypedefs (n : nat) : P (list optype) :=
  need KPunct "{" ;;; l <- do_loop n (parse_optypedef n) (at_close "}") ;; must1 KPunct "}" ;;; pret l.

(** parser.go:930-984 [parseSchemaDefinition]. *)
Definition parse_schemadef (n : nat) : P schemadef :=
  need KName "schema" ;;; ds <- parse_directives n LSchema ;; ops <- parse_optypedefs n ;; pret (mkSd ds ops).

(** parser.go:988-1015 [parseSchemaExtension]. *)
Definition parse_schemaext (n : nat) : P schemadef :=
  need KName "schema" ;;; ds <- parse_directives n LSchema ;;
  b <- peek1 KPunct "{" ;;
  ops <- (if b then parse_optypedefs n else pret []) ;;
  match ds, ops with [], [] => perr [] | _, _ => pret (mkSd ds ops) end.

(** parser.go:1550-1571 [parseDirectiveLocations]: the set of the listed locations, as bits. *)
Definition parse_dirloc : P dirloc := fun ts =>
  match mustn KName location_names ts with
  | POk t r => POk (location_by_name (tlit t)) r
  | PErr _ r => perr [expected KName location_names] r
  | PCrash c => PCrash c
  end.
Definition parse_dirlocs (n : nat) : P dirloc :=
  skip1 KPunct "|" ;;; l <- do_loop n parse_dirloc (pnot (skip1 KPunct "|")) ;; pret (fold_left N.lor l 0%N).

(** parser.go:1135-1169 [parseDirectiveDefinition]. *)
Definition parse_dirdef (n : nat) (desc : bytes) : P dirdef :=
  b <- skip1 KName "directive" ;;
  if negb b then pcrash NilDeref else
  need KPunct "@" ;;; t <- must0 KName ;; args <- parse_argdefs n ;; need KName "on" ;;;
  ls <- parse_dirlocs n ;; pret (mkDd desc (tlit t) args ls).

Definition type_kws : list string := ["scalar"; "type"; "interface"; "union"; "enum"; "input"]%string.

(** parser.go:832-881 [parseTypeSystemDefinition].  The last fall-through (an empty definition) cannot happen. *)
Definition parse_tsdef (n : nat) (desc : bytes) : P body :=
  b <- peek1 KName "schema" ;;
  if b then s <- parse_schemadef n ;; pret (DSchema s) else
  b <- peek1 KName "directive" ;;
  if b then d <- parse_dirdef n desc ;; pret (DDir d) else
  b <- peekn KName type_kws ;;
  if b then t <- parse_typebody n desc ;; pret (DType t) else
  pcrash NilDeref.

(** parser.go:885-927 [parseTypeSystemExtension]. *)
Definition parse_tsext (n : nat) : P body :=
  need KName "extend" ;;;
  b <- peek1 KName "schema" ;;
  if b then s <- parse_schemaext n ;; pret (XSchema s) else
  b <- peekn KName type_kws ;;
  if b then t <- parse_typebody n [] ;; pret (XType t) else
  perr [expected KName (map B ("schema"%string :: type_kws))].

(** parser.go:136-143: the keywords allowed after a description. *)
Definition tsdef_kws (d : bytes) : list string :=
  type_kws ++ ["directive"%string] ++ match d with [] => ["schema"%string] | _ => [] end.

(** parser.go:91-161 [parseDefinition].  [None]: a definition whose ExecutableDefinition is nil. *)
Definition parse_body (n : nat) : P (option body) :=
  t <- tok ;;
  let shorthand := beqb (tlit t) (B "{") in
  if isn KName [B "query"; B "mutation"; B "subscription"] t || is1 KPunct (B "{") t then
    b <- parse_operation n shorthand ;; pret (Some b)
  else if is1 KName (B "fragment") t then parse_fragment n
  else if is1 KName (B "extend") t then b <- parse_tsext n ;; pret (Some b)
  else
    d <- parse_desc ;;
    b <- peekn KName (tsdef_kws d) ;;
    if b then b <- parse_tsdef n d ;; pret (Some b)
    else perr [expected KName (map B ["query"; "mutation"; "fragment"]%string); want KPunct "{"].
Definition parse_definition (n : nat) : P (option definition) :=
  t <- tok ;; o <- parse_body n ;; pret (option_map (mkDef (tline t) (tcol t)) o).

(** parser.go:42-68: the counters and the set of extended type names. *)
Record counts := mkC { c_ops : nat; c_frags : nat; c_dirdefs : nat; c_schemas : nat; c_types : nat;
                       c_schemaexts : nat; c_exts : list bytes }.
Definition count_def (c : counts) (b : body) : counts :=
  let 'mkC o f d s t x e := c in
  match b with
  | DOp _ => mkC (S o) f d s t x e
  | DFrag _ => mkC o (S f) d s t x e
  | DDir _ => mkC o f (S d) s t x e
  | DSchema _ => mkC o f d (S s) t x e
  | DType _ => mkC o f d s (S t) x e
  | XSchema _ => mkC o f d s t (S x) e
  | XType y => mkC o f d s t x (if inb (t_name y) e then e else t_name y :: e)
  end.

(** parser.go:27-88 [Parse]: the loop; [definition.ExecutableDefinition.Kind] at line 47 dereferences a nil pointer
    when [parseDefinition] returned one. *)
Fixpoint parse_loop (n m : nat) (c : counts) : P (list definition * counts) :=
  match m with
  | O => pcrash OutOfFuel
  | S m =>
      o <- parse_definition n ;;
      match o with
      | None => pcrash NilDeref
      | Some d =>
          let c := count_def c (def_body d) in
          i <- peek0 KIllegal ;;
          if i then perr [] else
          e <- peek0 KEOF ;;
          if e then pret ([d], c) else
          x <- parse_loop n m c ;; pret (d :: fst x, snd x)
      end
  end.

Definition doc_of (x : list definition * counts) : document :=
  let '(ds, mkC o f d s t sx e) := x in mkDoc ds o f d s t sx (List.length e).

Definition parse_tokens (ts : list token) : pres document :=
  (x <- parse_loop (List.length ts) (List.length ts) (mkC 0 0 0 0 0 0 []) ;; pret (doc_of x)) ts.

(** [NewParser(input).Parse()]. *)
Inductive result := Doc (d : document) | Error (msg : bytes) | GoPanic | Diverges.
Definition parse (input : bytes) : result :=
  match lex_all input with
  | Ok ts _ =>
      match parse_tokens ts with
      | POk d _ => Doc d
      | PErr e _ => Error e
      | PCrash NilDeref => GoPanic
      | PCrash _ => Diverges
      end
  | Panic => GoPanic
  | Fuel => Diverges
  end.
End Parse.
