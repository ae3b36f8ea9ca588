# DESIGN — a Rocq model of bucketd/go-graphqlparser

Source: `/repo` (Go), read as text only.  Model and proofs: `/verif/rocq/theories` (logical name `Verif`), Coq 8.16.1.

## 1. Modelling conventions

* **Bytes and Go strings** are `list ascii` (a Coq `ascii` *is* an 8-bit byte, so every model value is a possible Go
  value and no well-formedness hypothesis is needed).  **Runes** are `Z` (`er = -1`, `eof = 0`).
* **Lexer state** is the record `{pos; lpos; line}` over a fixed input; every Go method becomes a function of the
  state that returns the result and the new state in an outcome monad `Ok | Panic | Fuel`.  A slice or index out of
  range and a negative position are explicit `Panic`s.  Loops take explicit fuel; exhausting it is the distinct
  outcome `Fuel`, which the termination theorems exclude.
* **Parser state** is the list of tokens still to be delivered, head = `p.token`; the list is the sequence of `Scan`
  results up to and including the first EOF/Illegal token.  Scanning beyond the last one is the explicit crash `Over`,
  a nil dereference (parser.go:47) the crash `NilDeref`, exhausted fuel the crash `OutOfFuel`; `Over` and `OutOfFuel`
  are proved unreachable (C10), `NilDeref` is characterised (C11).  Errors carry the state, because `parseType` swallows
  errors (parser.go:708-710).
* **AST**: Go's singly linked lists become Coq lists (nil pointer = `[]`); this abstraction is justified separately by
  `LinkedList.v`, a heap model of ast/lists.go with pointers and aliasing.  `Type` keeps the possible nil `ListType`.
* **Walker**: every generated `walkX` method is one Gallina function threading an arbitrary context through the
  registered enter/leave handlers.
* **Validation context and rules** are functions on the document/schema, with Go maps as association lists (a `make`d map whose iteration
  order is never observable) or option-valued functions; where Go iterates over a map and the order is observable the
  model says so.
* Go `int` is unbounded here except where the property is about its range (`strconv.Atoi`).

* **Parameters** instead of library code: `fok` (does `strconv.ParseFloat` accept this literal), `fg` (`%g` of a float
  literal), `peq` (pointer equality of two `ast.Type`s, only assumed to imply equality), `lev`/`lower` (edit distance
  and `strings.ToLower`, arbitrary), and one list per Go map iteration (`ord`, `od`, `ot`, `oi`), only assumed to visit each
  key once.  Theorems quantify over all of them.

## 2. Trusted base

* Coq 8.16.1's kernel, with `vm_compute` for the finite sweeps and the examples.
* The reading of the Go code recorded in the comment of each definition (file:lines).
* The behaviour of the Go standard library functions that are modelled rather than verified: `utf8.DecodeRune`,
  `strconv.Atoi`, `strconv.ParseFloat`, `strings.Split/Join`, `bytes.Buffer` (writes never fail), `fmt.Sprintf` (`%s %d %g`),
  and the contract of `sort.Slice` (the result is a permutation that is sorted by `less`, proposition `slice_sorted`).
  strconv's error texts are simplified to one shape.
* The JSON decoder of `Json.v`, written for C37 as a specification of RFC 8259 texts.
* No axioms are added.  `Print Assumptions` stands below every property theorem and prints "Closed under the global
  context" for each of them.  (`vcheck` lists seven constants of the standard library's `Coq.ssr.ssrunder` module type as
  library axioms because that file is loaded through the standard library; no theorem depends on them.)

## 3. Properties: what is modelled, how it is proved

| id | model | proof (file of the theorems) |
|----|-------|-------|
| C01 | Lexer.v | PropLex: invariant `pos <= len`, case analysis of every scan function, fuel bound by remaining bytes (LexerTotal) |
| C02 | Lexer.v vs LexSpec.v (inductive lexical grammar on code points) | PropLex: refinement of the byte lexer to a code-point lexer (LexCP, LexRefine), then to the grammar (LexAgree, LexMain) |
| C03–C05 | scanName, scanNumber, scanString | corollaries of the refinement; the specs are regular expressions/inductive character lists; counterexamples by computation |
| C06 | scanBlockString | equality with the spec's BlockStringValue on regular sources; witnesses outside |
| C07 | lpos/line bookkeeping | proved for sources without CR (lines also with block strings) and for CR LF sources without block strings (LexCrlf.v: the exact column shift); witnesses outside |
| C08 | encodeRune, utf8.DecodeRune (Utf8.v) | bit arithmetic, case split on ranges (Utf8Proofs) |
| C09 | readNextSignificant/scanComment | corollary of C02's refinement, and of ParserRel (the parser reads kinds and literals only) |
| C10, C11 | Parser.v | PropParse: fuel adequacy (every loop iteration consumes a token), weakest-precondition reasoning (ParserWp) |
| C12 | Parser.v vs Grammar.v (inductive June 2018 grammar) | induction on derivations (ParserComplete, ParserComplete2) |
| C13 | same | induction on fuel against the relaxed grammar (ParserSound); witnesses for each relaxation; C13_language: completeness also at level Any (the broken list types with what may follow them), so the accepted language is exact |
| C14 | Parse loop | invariant of the loop |
| C15 | Dumper.v | PropDump: the dump's tokens derive the document (DumpGrammar, DumpText, DumpBlocks, DumpWords, DumpMain), then C12 |
| C16 | Dumper.v | DumpTotal |
| C17 | LinkedList.v (heap with pointers) | PropList: list segments, aliasing |
| C18 | Walker.v vs WalkSpec.v (`kids` of each node, trees) | PropWalk: induction over the AST |
| C19, C39 | Context.v, Rules.v | PropRules: DFS = reachability (Dfs, CtxProofs) |
| C20–C26, C43 | Rules.v | PropRules: each rule's handler folded over the event sequence = specification (RuleProofs, QueryProofs) |
| C27–C32 | Context.v, Rules.v | PropSdl: fold invariant of the preparation, then as above (SdlProofs) |
| C33 | Top.v | PropTop: composition of the above |
| C34, C35 | SchemaBuild.v | PropBuild: fold invariants, independence of map order |
| C36, C40, C45 | Utils.v, SchemaValidate.v vs SchemaSpec.v | PropSchema: induction on types; rule-by-rule characterisation |
| C37, C38 | Errors.v vs Json.v | PropErrors |
| C41, C42 | Suggest.v | PropSuggest |
| C44 | Lexer.v | PropLex |
| C46 | Parser.v | PropParseErr: locality (ParserLocal): an error depends on the tokens read so far only |
| C47 | OpNames.v | PropOps |
| C48 | Top.v | PropCaller |
| C49 | Utils.v vs SchemaSpec.v | PropTypes |
| C50 | Positions.v (blanking positions commutes with walking, validating, building) | PropText |
| C52 | Top.v vs PropSound's `sound` | PropSound: decidability of the parts of SchemaSpec turns 'no violation' (C33, C36) into a positive statement; closure by `below` and C34 |
| C53 | Concurrent.v: each call a program (resumption) of steps on its schema, a schedule interleaves them | PropConc: every call is where it would be alone after as many steps (invariant over the schedule); handlers of ParseDoc only read |
| C54 | Rules.v, Top.v; Restyle.v defines documents with other field names, literals and !s | PropUse: renaming commutes with the events of a document and with every rule's handlers (cf. Positions.v); schemas: a relational walk, and for the converse one-fragment documents that tell schemas apart |
| C55 | Lexer.v, Parser.v, Grammar.v; specification WellFormed.v (a predicate on syntax trees) | NameTokens: loop invariant of the name scanner for arbitrary bytes; WellProofs: one lemma per grammar rule; PropWell: via C13 (soundness of the parser). NUL after a name and a stray last byte are exhibited as counterexamples for raw bytes |
| C56 | Parser.v (messages included); specification at the top of ParserWanted.v and PropWanted.v (wishes, their rendering, the tokens that fit) | ParserWanted: a two-run relation between a token list and the same list with one token replaced, closed under the combinators and loops of the parser, one lemma per parse function; PropWanted: the rendering of wishes is injective, fuel independence as for C46. The case after a description is exhibited as a counterexample |
| C57 | Context.v (`message`, all of errors.go); specification: `word`, `worded` (Messages.v), `raised` (PropMessages.v) | `Messages.v` proves `message` (errors.go) injective on errors about texts without quotes and spaces; `GoodNodes.v` that every node of a well-formed document (C55) is well-formed; `MessageProofs.v` that every error reported for a parsed document is about such texts (from the exact reports C19–C32 and C43). `PropMessages.v`: `C57_message_identifies`, `C57_reported_messages`; the hypothesis on a given schema holds for none and for every schema built from parsed input (`C57_schemas`), and is needed for hand-made ones (`C57_refuted_handmade`); `C57_extension_message_refuted`: the "Cannot extend non-…" message names the kind the type has. Examples give the message of every rule. |
| C58 | Rules.v (KnownDirectives), Parser.v, AST.v (locations); specification at the top of PropPlaces.v: `places` (where directives can stand, by name), `stands`, `lists`, `misplaced` | from C22 (bits), C55 (each directive records its place) via GoodNodes, C57 (messages) and the grammar of definitions (C13): `C58_misplaced_iff`, `C58_message_iff`, `C58_definition_lists`, `C58_builtin` |
| C59 | Parser.parse on Lexer output; specification LexSpec (`lexing`, `lexeme`) and `blames` (PropViable) | ParserViable, ParserViable2, ParserViable3: for each parser function, `good`: what it consumed derives the construct of Grammar.v, and when it fails the tokens before the blamed one can be completed with invented words (punctuators, letters) to a derivation; composed over sequences, loops and definitions. Text level (PropViable): the words are spelt, the cut source is lexed again (lexing_cut), GrammarFrame moves the derivation to the new positions, C13_language accepts it. Hopelessness: ParserLocal (locality of the parser) plus C13_language |
| C60 | Response.v: lab/server/response.go whole (floats as (-1)^neg·m·2^e, NaN, ±Inf; `strconv.FormatFloat(x,'f',5,64)` modelled as the exact decimal rounded half to even) | Json.decode as the specification of JSON, `shows` (PropResponse) of the value meant; induction over the value tree: the text of each value is an `elem` (decodes to it before any stop) or `fails` |
| C61 | Lexer.v: the literals of Illegal tokens, with Go 1.13's %q (`escaped_rune`; simplification: characters above U+007F are taken to be printable) | Complaint.v (specification: `complaint rest msg`, independent of the model); LexWhy.v: each scanning function that fails does so with a complaint about its text, by induction on the text; `clast` in LexMain.v ties the place to `lexing`/`stuck` |
| C62 | Context.v `ty_string`; Parser.v, Lexer.v | PropTypeText.v: induction on the type with the printing calculus of C15 (`pr`), completeness of the parser (C12), `message_inj` of C57 and the nodes of C55 |
| C63 | Top.v and everything under it, as for C33 (no new model) | `permuted`/`rearranged` (PropOrder.v) are the specification: the lists of definition bodies are permutations of each other (positions may differ). Queries: for each kind of error the exact theorem (C19–C26) writes the reported errors as a function of the definitions' nodes; `flat_nodes`/`perm_nodes` (Rearrange.v) make that a permutation-invariant function, and `perm_unused` re-expresses the use of variables through fragments over the bodies. SDL: the same from C21–C32, with look-ups made order-free by uniqueness, and `entries_filter` for operation types; the schemas by the exact description of BuildSchema (C34/C35), and schema validation because `violation`, `whole_types`, `has_undecided` only use look-ups (`same_violation` …). Text level: `C63_files` from C51. Refutations for each proviso (`C63_stray_refuted`, `C63_twice_refuted`, `C63_schema_extension_refuted`, `C63_extensions_refuted`). |
| C64 | Context.v (builtin.go, now with the descriptions), SchemaBuild.v | the specification is a GraphQL text, `prelude`; `prelude_parses` computes what the parser makes of it; `pre_nodes`/`pre_bodies` split every description of the reported errors (C21–C32) into the prelude's part (which reports nothing) and the document's; schemas by C34; schema validation by C63's `same_violation` …; text level (`C64_text`) by C51. |
| C65 | Written.v: the texts and the size of an AST (specification, on the AST alone) | `pays`: every derivation of the grammar takes its texts, in order, from the tokens it consumes and consumes at least as many tokens as it makes nodes (by the mutual induction of GrammarFrame.v); then C13 (accepted documents are derivations), C01 (a token consumes a byte), and `lexeme_width`: no lexeme denotes more bytes than it has (escapes, BlockStringValue). The bound on the bytes is refuted for sources that are not UTF-8. |
| C66 | `Flaws.v`: a separate list of the flaws of a schema by name (`has_flaw`), their texts (`text_of`), `plain_schema` (names without the punctuation of the texts, types known by their names); over `validate_schema` and `built` | the errors of C36 are the flaws (`C66_messages_exact`); texts read from the left, names end at punctuation, types by induction (`C66_told_apart`); C55 and C34 give that schemas built from text are plain (`C66_parsed`), all together `C66_one_flaw`; `C66_handmade_refuted` |
| C67 | `Edits.v`: edits as a relation, least number of edits; `suggestion_list` (Suggest.v) for every `lev` that computes it (the levenshtein package is not in the repository; `computes_distance` is its contract) | C42 plus the contract; the contract is met by the usual recursion (`distance_exact`, by alignments); `C67_swap_refuted` |
| C68 | `PropSplit.v`: `alone`, `later_placed_at` over `parse`, with the lexical grammar `lexing` | a lexing can be cut before any token (`cut`); a definition of the grammar can be moved in front of an end of file (`GrammarFrame`) (at the level `Any`: an end of file leaves a broken list type broken); C13 and `lex_main`; induction over the definitions |
| C69 | `Memory.v`: a second model of the lexer whose literals are pieces of the buffer or have memory of their own (`gostring`); `reads`, `overwrite`, `laid` in `PropMemory.v` | `scan_agree`: read while the buffer holds the source, its tokens are those of `Lexer.v`; `scan_region`: where the literals lie, using the Hoare lemmas of `LexerTotal.v`; C65 for documents |
| C70 | Merge.v: the merging of extensions (schema_build.go:119-157 and the operation-type loop) on the heap of linked lists that document and schema share (LinkedList.v `join`) | `document_laid_out`: every list ends, no two share cells. First build: induction over the joins with the set of cells as frame; extended types read `merged` (the specification of C34), extension lists become the suffixes. Second build: the links of the joined cells form a loop (`looped`), so ForEach and the next Join diverge for every fuel; exact criterion `can_build_again`. |
| C71 | ParserDepth.v: the parser of Parser.v once more with the depth of the recursive calls bounded separately from the loops; DepthSpec.v: nesting of token lists and of documents | three simulations (DepthProofs.v): with more room than open brackets it does what Parse does; with any sufficient room the result is Parse's and is not nested deeper; more room changes nothing. A family of sources (via C02_complete, C12_complete) needs exactly n + 2 |
| C72 | Dumper.v; the layout of lines in DumpLayout.v (specification section) | Induction over the nested values, types and selections of any parsed document (C55 gives its shape; names and escaped strings hold no line feed), each writer either staying on its line or producing the lines its relation names; documents by induction over the definitions. Side conditions (no line feed in a string value, no description of an argument or input field) are shown necessary for this layout by C72_outside |
| C73 | Walker.v, WalkSpec.v, DepthSpec.v; the counts of events in WalkDepth.v | The prefixes of the events of a tree (C18) have at most as many open nodes as the tree is high, and some have as many (induction on trees); height against nesting in both directions by induction on values, types and selections; exactness on a family of documents; sources through C71 |
| C51 | Grammar.v, via GrammarFrame.v (derivations do not look at what follows nor at positions) and C12/C13 | PropConcat |

Specifications are kept apart from the model: LexSpec, Grammar, WalkSpec, RuleSpec, SchemaSpec, DumpSpec, Json.

## 4. Not modelled

Memory allocation and capacity hints (`bc`), the aliasing of the buffer beyond tokens and the names of a document (C69), the size of the Go stack (C71 gives the depth of the parser's recursion and C73 the walker's; the dumper's, which follows the document, is not modelled separately), the numeric value of floats (a float is its literal),
int32 overflow of the document counters (impossible below 2^31 bytes of source: C14_no_overflow), the code generators in `tools/`, the experiments in `lab/` other than lab/server/response.go, benchmarks.
The files in validation/rules that are not in the `Specified` lists are empty stubs, except UniqueOperationNames (C47).

## 5. Status

All listed properties are proved (MANIFEST.json).  Where the ideal statement is false of the code the property in properties.jsonl states what
holds instead, and a theorem with the suffix `_refuted` exhibits the failure.  `seeded/` holds the mutation tests: `mutants_*.py/json` the
edits, `run.py` the runner, `LOG.jsonl` the outcomes.
