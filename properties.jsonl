{"id": "C01", "title": "Scanning always terminates, never panics and makes progress", "statement": "For every byte slice, repeatedly calling Scan on a fresh lexer never panics (no slice or index out of range, no negative position), each call returns, each call that returns a token other than EOF advances the input position by at least one byte and never past the end, and an EOF or Illegal token is reached after at most len(input)+1 calls. Once Scan has returned EOF every further call returns EOF at the same place, if the input has no NUL byte (a NUL between tokens is taken for the end, and a further call goes on behind it).", "quantifier": "every input byte slice (valid UTF-8 or not, any length) and every number of Scan calls", "why_tests_cant": "the slice arithmetic, un-read logic and look-ahead index `input[pos+1]` depend on what follows at the very end of the input; only a proof over all byte strings excludes an out-of-range access or an endless loop", "anchors": ["language/lexer.go:NewLexer", "language/lexer.go:Lexer.Scan", "language/lexer.go:Lexer.unread", "language/lexer.go:isTripQuotes"]}
{"id": "C02", "title": "Tokenisation agrees with the GraphQL lexical grammar", "statement": "For every source text of Unicode scalar values without NUL that is regular (it contains no triple quotes, or else no CR, no control characters other than tab and LF, and no two backslashes before triple quotes), the sequence of (kind, literal) pairs that Scan yields up to the first EOF/Illegal token is exactly the longest-match tokenisation of the June 2018 lexical grammar: BOM, white space, line terminators, commas and comments are skipped, each significant token is the lexeme the grammar assigns, EOF is reached iff the whole source tokenises, and otherwise an Illegal token comes at the first position where no lexeme starts. The tokenisation is unique. Outside that domain it fails: a NUL counts as end of input and becomes part of a name.", "quantifier": "every NUL-free valid UTF-8 source text that is regular, any length", "why_tests_cant": "the grammar is an infinite language; goldens check ~60 inputs", "anchors": ["language/lexer.go:Lexer.Scan", "language/lexer.go:Lexer.readNextSignificant", "language/lexer.go:Lexer.scanComment", "language/lexer.go:Lexer.scanPunctuator"]}
{"id": "C03", "title": "Name tokens are exactly maximal runs of name characters", "statement": "For every NUL-free valid UTF-8 source, every Name token is a maximal run /[_A-Za-z][_0-9A-Za-z]*/ of the source (the next character is not a name character) and its literal is that run; conversely every such run at a token position scans to one Name token. For other byte sequences it fails: a NUL or a stray last byte ends up inside the literal of the name before it.", "quantifier": "every source and every Name token produced from it", "why_tests_cant": "depends on the byte following the name, including end-of-input and multi-byte cases", "anchors": ["language/lexer.go:Lexer.scanName"]}
{"id": "C04", "title": "Number tokens are exactly IntValue/FloatValue lexemes", "statement": "For every NUL-free valid UTF-8 source, every Int token is a lexeme /-?(0|[1-9][0-9]*)/ of the source not followed by a digit, dot or exponent mark, every Float token a FloatValue lexeme (with a fractional and/or exponent part) not followed by a digit; every such lexeme, followed by a character that cannot extend it, scans to one token of that kind and literal; and ill-formed numbers (leading zero, missing digits after sign, dot or exponent mark) give an Illegal token. With a NUL after a number the NUL becomes part of the literal.", "quantifier": "every NUL-free valid UTF-8 source and every number token / every number lexeme", "why_tests_cant": "unbounded digit strings and all continuations", "anchors": ["language/lexer.go:Lexer.scanNumber", "language/lexer.go:Lexer.readDigits"]}
{"id": "C05", "title": "Quoted strings decode to the string the specification assigns", "statement": "For every valid UTF-8 string source `\"...\"`, the String token's literal is the UTF-8 encoding of the sequence of code points denoted by the characters and escapes (\\\" \\\\ \\/ \\b \\f \\n \\r \\t \\uXXXX), a source character below U+0020 other than tab makes it Illegal, an unknown or malformed escape makes it Illegal, and scanning resumes right after the closing quote.", "quantifier": "every sequence of string characters and escape sequences", "why_tests_cant": "two-pass decoding with byte counting; every mixture of escapes, multi-byte runes and quotes", "anchors": ["language/lexer.go:Lexer.scanString", "language/lexer.go:escapedChar", "language/lexer.go:encodeRune", "language/lexer.go:unicodeCodePointToRune"]}
{"id": "C06", "title": "Block strings decode to BlockStringValue", "statement": "For every block string in a valid UTF-8 source whose raw content has no CR, no control characters other than tab and LF and no two backslashes before triple quotes, the token literal equals the specification's BlockStringValue (common indentation removed, leading and trailing blank lines removed, triple-quote escapes undone), and scanning resumes right after the closing quotes. Outside: CR LF counts as two line terminators, a CR two characters before a LF is dropped, a backslash hides the character after it (so a control character is accepted, and so is an escaped-looking backslash before the closing quotes); each exhibited.", "quantifier": "every block string raw content of that kind (any number of lines, any indentation) and every text after it", "why_tests_cant": "indentation and line terminator combinations are unbounded; the existing goldens use LF", "anchors": ["language/lexer.go:Lexer.scanBlockString", "language/lexer.go:Lexer.blockStringLiteral", "language/lexer.go:leadingWhitespace"]}
{"id": "C07", "title": "Token lines and columns are accurate on LF sources, and lines and (up to a known shift) columns on CR LF sources", "statement": "For every source without CR (NUL-free valid UTF-8, regular as in C02) each token's Line is one plus the number of line feeds before its first character. If moreover the source has no triple quotes and does not end in two quotes, each token's Column is its 1-based rune offset from the start of its line; for the final Illegal token this needs at least two characters after a dangling quote. For every source without triple quotes in which all line breaks are CR LF, each token's Line is its line and (under the same conditions) each token's Column is its column, plus one exactly when the line break before its line does not end a comment: exact on the first line and after a line with a comment, one too large on all others. Outside: line feeds after a lone CR are not counted, a line feed in a block string does not restart columns, an empty string at the very end is one column to the left, a dangling quote has column 0; each exhibited.", "quantifier": "every such source and every token in it", "why_tests_cant": "accumulated state across arbitrary preceding text (CRLF, comments, multi-byte runes, block strings)", "anchors": ["language/lexer.go:Lexer.readNextSignificant", "language/lexer.go:Lexer.scanComment", "language/lexer.go:Lexer.read", "language/lexer.go:Lexer.unread"]}
{"id": "C08", "title": "The private rune encoder agrees with UTF-8", "statement": "encodeRune emits, for every Unicode scalar value, exactly its UTF-8 encoding (1-4 bytes), decoding that encoding returns the same value and width whatever bytes follow, and for every other 32-bit value (surrogates, negatives, > U+10FFFF) it emits the encoding of U+FFFD.", "quantifier": "every int32 rune and every following byte sequence", "why_tests_cant": "1.1 million values times all continuations; unit tests sample a handful", "anchors": ["language/lexer.go:encodeRune", "language/lexer.go:Lexer.readUnicode"]}
{"id": "C09", "title": "Ignored tokens never influence parsing", "statement": "The tokens (kind and literal), hence the outcome of Parse up to positions, depend only on the texts of the source's lexemes and not on what separates them: two sources with the same lexemes give the same tokens and the same document, and inserting white space, commas, BOMs, line terminators or comments at the start or after any token of a source changes neither (sources in the domain of C02).", "quantifier": "every pair of sources differing only in ignored text between tokens", "why_tests_cant": "arbitrary placements and arbitrary comment content", "anchors": ["language/lexer.go:Lexer.readNextSignificant", "language/lexer.go:Lexer.scanComment"]}
{"id": "C10", "title": "Parsing always terminates", "statement": "Parse returns (a document, an error, or a panic) for every input: no input makes any parse loop run for ever, and no token is requested after the EOF/Illegal token.", "quantifier": "every input byte slice", "why_tests_cant": "recursive descent with hand-written loops, several of which do not themselves check for EOF; non-termination cannot be observed by a finite test", "anchors": ["language/parser.go:Parser.Parse", "language/parser.go:Parser.parseValue", "language/parser.go:Parser.parseSelectionSet", "language/parser.go:Parser.parseType"]}
{"id": "C11", "title": "Parsing panics only on a dangling fragment keyword", "statement": "Parse panics only when the source has a Name token \"fragment\" directly followed by a token that is not a Name; and it does panic when such a \"fragment\" stands where a definition starts, after any number of complete definitions. Exactly: Parse panics iff the tokens are some definitions of the accepted language (C13) followed by such a \"fragment\". So malformed input is otherwise reported through the returned error. The unrestricted claim (never panics) is false: the sources `fragment` and `{a} fragment {b}` panic.", "quantifier": "every input byte slice", "why_tests_cant": "crash freedom over all inputs; a single unlisted input falsifies it", "anchors": ["language/parser.go:Parser.Parse", "language/parser.go:Parser.parseFragmentDefinition", "language/parser.go:Parser.parseDefinition"]}
{"id": "C12", "title": "Every grammatical document is accepted and yields its AST", "statement": "For every token sequence derivable from the June 2018 Document grammar (descriptions included; longest match for optional blocks), Parse returns no error and a document whose definitions are exactly the ones the derivation denotes: same definitions in the same order, same names, arguments, directives with their locations, selections, types, values and descriptions. The derivation is unique. (Integer literals must fit an int64 and float literals be accepted by strconv.ParseFloat, as the grammar records.)", "quantifier": "every derivation of the document grammar, any size and nesting depth", "why_tests_cant": "infinitely many documents; fixtures cover a few dozen", "anchors": ["language/parser.go:Parser.Parse", "language/parser.go:Parser.parseDefinition", "language/parser.go:Parser.parseSelectionSet", "language/parser.go:Parser.parseTypeDefinition"]}
{"id": "C13", "title": "Only (relaxedly) grammatical documents are accepted, and all input is consumed", "statement": "If Parse returns a document without error then the whole token sequence up to EOF is derivable from the grammar, relaxed in the listed ways, and denotes that document; no Illegal token and nothing after the document is skipped. Apart from list types whose item type is broken, Parse accepts exactly the relaxed grammar; and without any exception it accepts exactly the relaxed grammar plus the two broken forms of a list type (\"[\" where neither a name nor \"[\" follows; \"[\" \"[\" and a type that no \"]\" follows). The relaxations are real: `query($a:[){b}`, `fragment F on T!{a}`, `type A implements [I]`, `{a()}`, `query($a:Int=$b){c}`, `extend type A`, `directive @d on VARIABLE_DEFINITION` and a described schema definition are accepted though not in the June 2018 grammar.", "quantifier": "every input accepted by Parse", "why_tests_cant": "the negative half of a language-membership property ranges over all strings not in the language", "anchors": ["language/parser.go:Parser.Parse", "language/parser.go:Parser.parseType", "language/parser.go:Parser.mustConsume"]}
{"id": "C14", "title": "Document counters are the true counts", "statement": "After a successful Parse the document's OperationDefinitions, FragmentDefinitions, DirectiveDefinitions, SchemaDefinitions, TypeDefinitions and SchemaExtensions counters equal the number of definitions of that kind in the document, and TypeExtensions equals the number of distinct type names that are extended.", "quantifier": "every successfully parsed document", "why_tests_cant": "counters are incremented on many code paths; off-by-one appears only in particular mixtures", "anchors": ["language/parser.go:Parser.Parse", "ast/ast.go:Document"]}
{"id": "C15", "title": "Dump then Parse gives the same document (on the documents that survive)", "statement": "For every document that Parse returns for a valid UTF-8 source without NUL, and that meets the conditions below, the text written by Sdump/Fdump parses to the same document (same definitions in the same order, same counters; positions may differ), and dumping that document again gives the same text. Conditions: field, argument and input field types are not list types; type conditions, interfaces and union members are bare names; floats print as they were written; a lone anonymous query has no variables and no directives; strings with line feeds and descriptions keep their value when printed as block strings (no blank first or last line, some line at the margin, no control characters, no backslash before a triple quote, no triple quote in a description); other strings have no control characters but backspace, tab and form feed. For each condition a document is exhibited whose dump is not the same document, for example type A { a: [B] }, query ($a: B) { c }, {a(b: 1.0)}.", "quantifier": "every parsed document", "why_tests_cant": "round-trip law over an infinite set of ASTs, including escapes, block strings, floats, nesting, default values, and description/directive combinations", "anchors": ["ast/dumper.go:Sdump", "ast/dumper.go:Fdump", "ast/dumper.go:dumper.dumpDefinitions", "ast/dumper.go:dumper.dumpValue", "ast/dumper.go:escapeGraphQLString", "language/parser.go:Parser.Parse"]}
{"id": "C16", "title": "When dumping panics", "statement": "Sdump/Fdump panics on a document exactly when the type of some variable definition or schema operation contains a list type without an item type. For parsed documents this can only be a variable type; documents whose source derives from the GraphQL grammar are always dumped. The parser does accept broken list types: query ($a: [) { b } parses and its dump panics.", "quantifier": "every successfully parsed document", "why_tests_cant": "nil child pointers only arise from particular inputs", "anchors": ["ast/dumper.go:Sdump", "ast/dumper.go:dumper.dumpType", "language/parser.go:Parser.parseType"]}
{"id": "C17", "title": "AST linked lists behave like sequences", "statement": "For every program of Add, Join, Insert, Reverse, FromSlice, Len, ForEach and Generator/Next calls on any number of list variables of package ast (in which Join has a non-nil receiver and joins lists that share no nodes, and a consumed list is not used again), no call dereferences nil or runs for ever and every observation is that of abstract sequences: Add prepends, Reverse reverses, Join concatenates, Len is the length, ForEach visits each element once with its index, Insert leaves `pos` elements (clamped) behind the new one, FromSlice keeps the order, a generator yields the elements in order with their indices and then (zero value, -1). What does not hold: Join on a nil receiver appends nothing, a generator that was Reset yields nothing, joining a list to itself makes it cyclic.", "quantifier": "every sequence of list operations", "why_tests_cant": "aliasing and position counters: every operation history", "anchors": ["ast/lists.go:Arguments.Add", "ast/lists.go:Arguments.Reverse", "ast/lists.go:Arguments.Join", "ast/lists.go:Arguments.Insert", "ast/lists.go:ArgumentsGenerator"]}
{"id": "C18", "title": "The walker enters and leaves every AST node exactly once, well nested", "statement": "Walking a document calls, for each AST node, every handler registered for its enter event exactly once and every handler registered for its leave event exactly once, in document order and well-nested (parent enter before children, leave after), and handlers of one event run in registration order; no handler is called for nodes not in the document.", "quantifier": "every document and every set of registered handlers", "why_tests_cant": "3500 generated lines; all shapes of documents", "anchors": ["validation/walker.go:Walker.Walk", "validation/walker.go:Walker.walkDefinition", "validation/walker.go:Walker.walkSelection"]}
{"id": "C19", "title": "NoUnusedVariables is exact", "statement": "On executable documents an unused-variable error for $v of operation O is reported exactly when O defines $v and it is not used in O's selections, directives or arguments nor in any fragment transitively reachable from O by spreads; one error per unused variable definition, in document order. In documents that mix in type system definitions a variable that occurs in a type system definition counts as used by the executable definition before it.", "quantifier": "every document, with any (also cyclic) fragment graph", "why_tests_cant": "reachability through arbitrary, possibly cyclic fragment graphs", "anchors": ["validation/rules/rule_no_unused_variables.go", "validation/context.go:Context.RecursiveVariableUsages"]}
{"id": "C20", "title": "LoneAnonymousOperation is exact", "statement": "On every parsed document (more generally: whose operation counter is accurate, C14), the anonymous-operation error is reported once for each anonymous operation exactly when the document contains more than one operation.", "quantifier": "every document", "why_tests_cant": "all combinations of operations", "anchors": ["validation/rules/rule_lone_anonymous_operation.go"]}
{"id": "C21", "title": "KnownTypeNames is exact", "statement": "An unknown-type error is reported for exactly those named-type references that name a type defined neither by the schema, the document nor the built-in types.", "quantifier": "every document and schema", "why_tests_cant": "all references in all positions", "anchors": ["validation/rules/rule_known_type_names.go"]}
{"id": "C22", "title": "KnownDirectives is exact", "statement": "For each directive application in a document: an unknown-directive error iff no directive of that name exists in the schema/document/built-ins; otherwise a misplaced-directive error iff the definition does not list the application's location; otherwise no error.", "quantifier": "every document, schema and directive location", "why_tests_cant": "19 locations times arbitrary definitions", "anchors": ["validation/rules/rule_known_directives.go", "language/parser.go:Parser.parseDirectives"]}
{"id": "C23", "title": "UniqueDirectivesPerLocation is exact", "statement": "A duplicate-directive error is reported at a node iff the same directive name is applied there more than once; the number of errors is the number of repeats.", "quantifier": "every document", "why_tests_cant": "arbitrary lists of directives", "anchors": ["validation/rules/rule_unique_directives_per_location.go"]}
{"id": "C24", "title": "UniqueArgumentNames is exact", "statement": "A duplicate-argument error is reported iff one field or directive application gives the same argument name twice; arguments of different fields, and of nested fields, never interfere.", "quantifier": "every document and nesting", "why_tests_cant": "state is shared across nested walks, so interference depends on nesting", "anchors": ["validation/rules/rule_unique_argument_names.go"]}
{"id": "C25", "title": "UniqueInputFieldNames is exact", "statement": "A duplicate-input-field error is reported iff one object literal gives the same field name twice; sibling and nested object literals do not interfere.", "quantifier": "every document, any nesting of object/list values", "why_tests_cant": "nested object literals use a stack; arbitrary nesting", "anchors": ["validation/rules/rule_unique_input_field_names.go"]}
{"id": "C26", "title": "ExecutableDefinitions is exact", "statement": "When validating a query document an error is reported for exactly the non-executable definitions.", "quantifier": "every document", "why_tests_cant": "all mixtures of definitions", "anchors": ["validation/rules/rule_executable_definitions.go"]}
{"id": "C27", "title": "Unknown arguments of directives are always reported (and what else is)", "statement": "In SDL documents no unknown argument of a defined directive is missed: for each application of a defined directive an unknown-argument error is reported for its first argument iff the definition has no argument of that name, and for every further argument whatever its name. So the check is exact for applications with at most one argument, arguments of undefined directives are never reported, and from the second argument on declared arguments are reported too (exhibited).", "quantifier": "every SDL document, directive definition and argument list", "why_tests_cant": "argument list order and length", "anchors": ["validation/rules/rule_known_argument_names.go", "ast/lists.go:ArgumentsGenerator.Reset"]}
{"id": "C28", "title": "ProvidedRequiredArgumentsOnDirectives is exact", "statement": "For each directive application, a missing-argument error is reported for exactly those arguments of the definition that are non-null, have no default value, and are not supplied.", "quantifier": "every SDL document and directive definitions", "why_tests_cant": "all subsets of arguments", "anchors": ["validation/rules/rule_provided_required_arguments.go"]}
{"id": "C29", "title": "PossibleNames reports every reserved name (and more)", "statement": "In SDL a name error is reported for exactly those type, field, argument, input field and directive definitions whose name has at least two characters and an underscore as first or second character. So every name that starts with two underscores is reported; so are `_a` and `a_b` (exhibited); enum values are not checked (exhibited).", "quantifier": "every SDL document and every name", "why_tests_cant": "all names", "anchors": ["validation/rules/rule_possible_names.go"]}
{"id": "C30", "title": "PossibleTypeExtensions is exact", "statement": "A type-extension error is reported for exactly the extensions whose target type does not exist or is of a different kind.", "quantifier": "every SDL document and base schema", "why_tests_cant": "all kinds \u00d7 presence", "anchors": ["validation/rules/rule_possible_type_extensions.go"]}
{"id": "C31", "title": "UniqueOperationTypes is exact", "statement": "In SDL, an error is reported for exactly those operation types of schema definitions that repeat a kind within the same definition, and those of schema extensions whose kind the existing schema has or an earlier schema definition or extension gave. When no schema is extended and the schema definition comes first, these are the second and later occurrences of each kind. A definition after an extension is not compared with it (exhibited).", "quantifier": "every SDL document and base schema", "why_tests_cant": "all sequences of schema definitions/extensions", "anchors": ["validation/rules/rule_unique_operation_types.go"]}
{"id": "C32", "title": "SDL definition uniqueness checks are exact", "statement": "Validating an SDL document reports an error for exactly the type and directive definitions whose name the existing schema has, the second and later definitions of the other type names and directive names, and every schema definition but the first (when extending a schema: every schema definition).", "quantifier": "every SDL document and base schema", "why_tests_cant": "all multiplicities and orders", "anchors": ["validation/context.go:PrepareContextSDL"]}
{"id": "C33", "title": "Entry points return exactly one outcome", "statement": "ParseDoc returns the parsed document unchanged exactly when the source parses and every query rule is satisfied, errors (at least one, those of validation) exactly when it parses and is not valid, the parse error otherwise; it always returns, and panics only if parsing does. ParseSDLDoc returns the schema built from the document exactly when the source parses, every SDL rule is satisfied and the built schema is well-formed, errors when one of these fails, a parse error otherwise; without broken list types it panics only if parsing does and fails to return exactly when schema validation reaches a pair of types that IsTypeSubTypeOf hangs on (`type Query{f:[ }` panics, an object field standing for an interface-typed interface field it does not implement hangs).", "quantifier": "every input and schema", "why_tests_cant": "composition of parser, walker and all rules", "anchors": ["graphqlparser.go:ParseDoc", "graphqlparser.go:ParseSDLDoc"]}
{"id": "C34", "title": "Building a schema merges definitions and extensions", "statement": "For a valid SDL document (no schema extended) the built schema contains exactly the types and directives the document defines plus the built-ins (@skip, @include, @deprecated, ID, String) it does not define itself; each extended type is its definition with the directives, fields, interfaces, members, values and input fields of its extensions appended in document order, except that nothing is appended to a part that is empty in the definition; the schema definition is the document's (or `{query: Query}`) with the schema extensions appended (they are dropped when there is no schema definition), and the roots are its operation types. The result does not depend on map iteration order and building never panics. The two losses are exhibited.", "quantifier": "every valid SDL document, any number of extensions", "why_tests_cant": "empty-vs-non-empty base lists and extension order", "anchors": ["validation/schema_build.go:buildSchema", "validation/schema_build.go:mergeTypeExtensions"]}
{"id": "C35", "title": "Extending a schema: what is kept and what is lost", "statement": "Building from an existing schema and a valid SDL document overwrites the given schema: the result (the same object) contains only the types and directives that the document defines, with its extensions, no type and no directive of the existing schema, the query root is reset to the type named Query, the mutation and subscription roots are kept. So the ideal property (existing definitions are kept and the given schema is not modified) is refuted for every schema that has a type or directive.", "quantifier": "every existing schema and SDL document", "why_tests_cant": "all pairs of schemas; mutation of shared state", "anchors": ["validation/schema_build.go:buildSchema"]}
{"id": "C36", "title": "Subtype check and schema validation: exactly when they terminate, and correct when they do", "statement": "On list types with item types, IsTypeSubTypeOf returns true exactly for the covariance relation of the specification (identical, non-null to nullable, list covariance, possible types of an abstract type), returns false exactly on the other pairs except the undecided ones (an object type against an interface or union it does not belong to, at equal depth), on which it never returns; it never panics. Schema validation, when it returns, reports exactly the violations (missing or non-object roots, names, fields, arguments, input and output types, interfaces not implemented), whatever the map orders; it returns exactly when no object field stands for an interface field at an undecided pair; it panics only on types with a broken list.", "quantifier": "every pair of type references and every schema", "why_tests_cant": "non-termination cannot be observed by testing; relation over all nested types", "anchors": ["validation/utils.go:IsTypeSubTypeOf", "validation/utils.go:IsPossibleType", "validation/schema_validate.go:ValidateSchema"]}
{"id": "C37", "title": "Errors marshal to faithful JSON exactly when they need no escaping", "statement": "Marshalling an error whose message and path names are plain (valid UTF-8, no quotation mark, no backslash, no control character) and whose locations are non-negative produces valid JSON that decodes to its message, locations and path; for errors without locations and path, plain messages are the only ones for which it does. A quotation mark before anything but white space, comma or brace makes the text no JSON at all, which is the case for every library error that quotes a name.", "quantifier": "every error value", "why_tests_cant": "message and path strings are arbitrary bytes", "anchors": ["graphql/errors.go:Error.MarshalJSON"]}
{"id": "C38", "title": "SortErrors returns a permutation sorted by JSON text", "statement": "SortErrors always returns; the result is a permutation of the given errors in descending order of their JSON texts and does not depend on the order in which they were given (same texts; the same errors if they are plain). Messages of which neither is a prefix of the other are thus ordered as messages (descending); a message and a prefix of it need not be (exhibited). Relies on the contract of sort.Slice.", "quantifier": "every error list", "why_tests_cant": "all permutations and duplicates", "anchors": ["graphql/errors.go:SortErrors"]}
{"id": "C39", "title": "Reachability helpers compute the transitive closure", "statement": "The recursively referenced fragments of an operation are exactly the fragments reachable through spreads (each once), and recursive variable usages exactly the variables used in the operation or those fragments; both terminate on cyclic spreads.", "quantifier": "every executable document", "why_tests_cant": "arbitrary, possibly cyclic graphs", "anchors": ["validation/context.go:Context.RecursivelyReferencedFragments", "validation/context.go:Context.RecursiveVariableUsages"]}
{"id": "C40", "title": "Schema name validation is exact", "statement": "A schema name is reported as reserved iff it starts with two underscores, and as invalid iff it does not and does not match /^[_a-zA-Z][_a-zA-Z0-9]*$/. Schema validation checks in this way exactly the names of directives, their arguments, types other than the introspection types, fields of object and interface types and their arguments (not enum values and input fields).", "quantifier": "every name and every schema on which schema validation returns", "why_tests_cant": "all strings", "anchors": ["validation/schema_validate.go:validateName"]}
{"id": "C41", "title": "OrList formats exactly the first five alternatives", "statement": "OrList of a non-empty list joins its first five items: a; `a or b`; `a, b, or c`; \u2026 and mentions no other item; it panics on the empty list only. QuotedOrList gives the same on quoted items, and overwrites the caller's slice with the quoted items.", "quantifier": "every non-empty list of strings", "why_tests_cant": "all lengths", "anchors": ["validation/utils.go:OrList", "validation/utils.go:QuotedOrList"]}
{"id": "C42", "title": "SuggestionList is a filtered, distance-sorted selection", "statement": "SuggestionList returns exactly the options whose distance to the input is at most the threshold (half the longer length in bytes, at least one), each as often as it is given, ordered by distance, longer ones first among equally distant ones; an option equal to the input comes first if different strings have positive edit distance. The distance is 0 for equal strings, 1 for strings equal up to case, else the library's edit distance of the lower-cased strings. Relies on the contract of sort.Slice; the edit distance and ToLower are arbitrary functions.", "quantifier": "every input string and option list", "why_tests_cant": "all option lists and distance functions", "anchors": ["validation/utils.go:SuggestionList"]}
{"id": "C43", "title": "Validation is read-only and deterministic", "statement": "Validating a document does not change the schema and never panics, and leaves the document as it was, with one exception: validating a type system document gives every anonymous operation the name $$query. The errors are a function of the document and schema only, each of one of the kinds of C19-C32; the order in which the query rules are registered does not change the multiset of errors.", "quantifier": "every document, schema and rule order", "why_tests_cant": "state sharing between rules through the context", "anchors": ["validation/validate.go:Validate", "validation/context.go:NewContext"]}
{"id": "C44", "title": "String/name/number literals are taken verbatim from the source", "statement": "In every NUL-free valid UTF-8 source, tokens occupy disjoint, increasing, non-empty stretches of the source; the literal of a Name, Int, Float or Punctuator token is that stretch, and the literal of a quoted String token without backslash is the text between its quotes.", "quantifier": "every source", "why_tests_cant": "unsafe byte-slice-to-string conversions over arbitrary offsets", "anchors": ["language/lexer.go:btos", "language/lexer.go:Lexer.Scan"]}
{"id": "C45", "title": "Lookups by name return the first match", "statement": "FieldDefinitionByName returns the first field of that name of an object or interface type, and reports that there is none otherwise. EnumValueDefinitionByName returns the first enum value of that name; when the enum has no such value the call never returns (its loop does not see the end of the list).", "quantifier": "every type definition and every name", "why_tests_cant": "the lists are unbounded, and that a call never returns cannot be observed by a test", "anchors": ["ast/ast.go: TypeDefinition.FieldDefinitionByName, TypeDefinition.EnumValueDefinitionByName", "ast/lists.go: Generator, Next"]}
{"id": "C46", "title": "A parse error names a token and is final", "statement": "When Parse returns an error, the source's tokens split into a part `pre` that was read and a next token `t` such that (a) the message quotes the line, column, kind and text of t, or of the last token of pre; or it is strconv's complaint about the number that is the last token of pre (it names Atoi or ParseFloat according to the token's kind and shows the literal, bytes that are not printable ASCII as \\xhh, with the reason \"value out of range\" or \"invalid syntax\"; the former when the literal is nothing but a number; when another byte, such as a NUL, follows the digits of an integer, the former exactly if these digits already make 2^64 or more); or it is the fixed text \"TODO: see `parseDefinition`\" (which carries no position); and (b) every source whose tokens begin with pre followed by t \u2014 whatever comes after \u2014 is rejected with exactly the same message, so no document of the grammar begins that way.", "quantifier": "every source Parse rejects and every other source that shares its tokens up to the offending one", "why_tests_cant": "it speaks of all continuations of a rejected prefix", "anchors": ["language/parser.go: Parse, parseDefinition and all parse* functions, mustConsume0/1/n, unexpected, expected"]}
{"id": "C47", "title": "UniqueOperationNames reports exactly the duplicated operation names", "statement": "A walker extended with the exported rule UniqueOperationNames reports, on an SDL context, one duplicate-operation-name error for every operation whose name is used again by a later operation (anonymous operations share the name $$query), in document order: nothing when all names differ, k-1 errors for a name used k times, and every other report is unchanged. On a query context the rule never reports anything, whatever the operations are called.", "quantifier": "every document and every schema", "why_tests_cant": "any number of operations in any order, with pointer identity deciding", "anchors": ["validation/rules/rule_unique_operation_names.go: UniqueOperationNames", "validation/context.go: PrepareContextSDL, NewContext"]}
{"id": "C48", "title": "What becomes of the schema the caller passes in", "statement": "ParseDoc never changes the schema it is given. ParseSDLDoc leaves it unchanged unless the source parses and satisfies the rules for type system documents; otherwise the caller's schema is overwritten by the built one, even when schema validation then reports errors (so atomicity is refuted). A schema that is returned is the caller's own, and none of its previous types and directives is left in it; a schema that has a type called Query can therefore never be extended successfully. The entries for the shared built-in scalars are never modified by merging extensions.", "quantifier": "every source, every given schema, every order in which Go iterates over its maps", "why_tests_cant": "it is about every failure point of the pipeline and an observable side effect on the caller's data", "anchors": ["graphqlparser.go: ParseDoc, ParseSDLDoc", "validation/schema_build.go: BuildSchema", "validation/context.go: NewSDLContext"]}
{"id": "C49", "title": "The exported predicates on types are exact", "statement": "IsInputType and IsOutputType say whether the innermost named type is of an input (output) kind, whatever the wrapping, and panic exactly when a list type has no element type; IsObjectType, IsInterfaceType, IsUnionType and IsAbstractType say whether the schema gives the type that kind; IsUnionMemberType holds exactly for bare names of object types. InterfaceImplementations has exactly the interfaces as keys and lists each object type once per time it names the interface, in an order that may vary only with map iteration; PossibleTypes is the union's members or the interface's implementations. IsPossibleType returns true or never returns; it never returns false.", "quantifier": "every schema, every type reference, every map iteration order", "why_tests_cant": "unbounded wrapping depth and schemas; non-termination", "anchors": ["validation/utils.go: IsInputType, IsOutputType, IsObjectType, IsInterfaceType, IsUnionType, IsAbstractType, IsUnionMemberType, InterfaceImplementations, PossibleTypes, IsPossibleType"]}
{"id": "C50", "title": "The layout of a source does not influence what the entry points return", "statement": "Two sources with the same lexemes, whatever white space, commas, comments and line breaks separate them, make ParseDoc and ParseSDLDoc end in the same way: both are refused, or the same validation errors are reported in the same order, or documents that are the same up to positions (the same schema) are returned, or both panic or hang. The same holds when ignored text is inserted after a token, and when a source is replaced by the dump of its document (on the documents of C15).", "quantifier": "every pair of such sources, every schema, every map order", "why_tests_cant": "infinitely many layouts of every source, through lexer, parser, validation and schema building", "anchors": ["graphqlparser.go: ParseDoc, ParseSDLDoc", "language/lexer.go: readNextSignificant", "validation/validate.go", "validation/schema_build.go"]}
{"id": "C51", "title": "Sources can be concatenated", "statement": "If two sources are each accepted by Parse, then the first, a line feed, and the second are accepted together, and the resulting document has the definitions of the first followed by those of the second, unchanged; in sources without carriage returns every definition of the second is reported as many lines further down as the first source and the line feed have line ends, and (without block strings and a trailing empty string) at the same column. The counters add up. The same for any number of sources. Exceptions, each shown necessary: the first source ends in a definition whose optional block was omitted and the second starts with '{'; a list type lacks its item type; and the line feed itself (a comment at the end of the first source would swallow the second).", "quantifier": "all pairs (and lists) of accepted sources in the domain of the lexical grammar (C02)", "why_tests_cant": "a test can only concatenate particular files; that no pair of accepted sources interacts across the boundary is a statement about all of them", "anchors": ["language/parser.go:Parse", "language/parser.go:parseDefinition", "language/lexer.go:Scan"]}
{"id": "C52", "title": "A returned schema is sound and closed", "statement": "ParseSDLDoc returns a schema exactly when the source parses to a valid document and the schema built from it is sound: the query root is an object type of the schema (mutation and subscription roots too, where they name a type of the schema); type, directive, field and argument names are legal and not reserved; every object and interface has a field; every field's type is a scalar, object, interface, union or enum of the schema (or lists of one) and every argument's a scalar, enum or input object; argument names do not repeat; and an object implements only interfaces, each once, and its first field with the name of each interface field has a type at least as precise. If no schema was given, each type is found under its own name and every type mentioned anywhere (also by unions and input objects) is in the schema or is Int, Float or Boolean. Nothing more can be relied on: union members, input object fields, repeated fields or enum values, interface arguments and non-existing roots are not checked.", "quantifier": "every source text, every given schema or none, every iteration order of the maps", "why_tests_cant": "it is a statement about everything in any schema that any source can produce; a test inspects one schema", "anchors": ["graphqlparser.go: ParseSDLDoc", "validation/schema_validate.go: ValidateSchema", "validation/schema_build.go: BuildSchema"]}
{"id": "C53", "title": "Concurrent calls do not disturb each other", "statement": "Any number of ParseDoc and ParseSDLDoc calls may run at the same time. As long as no ParseSDLDoc is given a schema that another call in progress is given, every call ends exactly as if it ran alone, whatever the interleaving, and ends once it has had enough turns; ParseDoc calls may share one schema. Schemas that no ParseSDLDoc was given never change, and one that was becomes what that call alone makes of it. Without the condition this is false: two ParseSDLDoc calls on one schema can both succeed in defining the same type, and a query can be validated against a half-built schema, outcomes that no order of the calls gives.", "quantifier": "every list of calls with any inputs and schemas, every schedule of their steps of any length, every iteration order of maps", "why_tests_cant": "tests run a few schedules; a race shows only under particular interleavings, and absence under all of them cannot be observed", "anchors": ["graphqlparser.go: ParseDoc, ParseSDLDoc, DefaultValidationWalker", "validation/context.go: NewContext, NewSDLContext", "validation/validate.go", "validation/schema_build.go"]}
{"id": "C54", "title": "What the verdict on a query depends on", "statement": "The errors ParseDoc reports for a document (and so whether it accepts it) do not depend on the names and aliases of the selected fields, on the literal values in arguments and defaults, on whether types are marked non-null, nor on positions: two sources that differ only in these get the same errors in the same order. Of the schema only the set of known type names, the set of declared directives and the locations each directive may be used at matter: two schemas give the same errors for every document if and only if they agree in these. So validation does not notice (and accepts) fields that do not exist, undefined fragments, fragment cycles, undeclared variables, arguments of the wrong type, and duplicate operations or fragments.", "quantifier": "every pair of documents with the same skeleton, every pair of schemas, every document", "why_tests_cant": "independence from a part of the input is a statement about all values of that part, and the equivalence on schemas ranges over all schemas and documents", "anchors": ["graphqlparser.go: ParseDoc", "validation/rules/rules.go: Specified", "validation/validate.go: Validate"]}
{"id": "C55", "title": "Parsed documents are well-formed", "statement": "Every document Parse returns is lexically and structurally well-formed: all identifiers in it (types, fields, arguments, variables, aliases, fragments, directives, enum values, operation names) are GraphQL names taken from the input, enum values are never true, false or null, fragments are never called on, integers fit in 64 bits, operations, fragments and inline fragments have at least one selection, each directive application records the location it really stands at, each type definition has only the parts its kind has, and directive definitions have at least one location and only known ones. For valid UTF-8 without NUL this holds outright; on other inputs the only deviation is one byte of junk (NUL, or a stray non-ASCII last byte of the input) glued to the end of a name.", "quantifier": "every byte string that Parse accepts, every node of the returned document", "why_tests_cant": "it ranges over all accepted inputs of any size and nesting, including malformed encodings", "anchors": ["language/parser.go: Parse", "language/lexer.go: scanName, readUnicode", "ast/ast.go"]}
{"id": "C56", "title": "What a parse error says is wanted is accepted there", "statement": "When Parse refuses an input with a message of the form `unexpected token found at line .., column .. . Found: .. . Wanted: ...`, every token the Wanted list names (a kind with one of the listed literals, or any literal when none is listed) is accepted at that place: any input that has the same tokens before it and such a token instead of the refused one is parsed further, i.e. it is parsed successfully, or refused at a strictly later token (or runs into the documented panic). The Wanted list can be read back from the text in only one way. The only exception is the token right after a description, where the message offers query, mutation, fragment and { although none of them is accepted there. All other error messages are: the TODO message without a position, a number strconv refuses, a reserved word as an enum value.", "quantifier": "every refused input, every token named in its Wanted list, every continuation", "why_tests_cant": "ranges over all refused inputs, all tokens that fit the list and all continuations after the replaced token", "anchors": ["parser/parser.go: unexpected, expected, mustConsumeN, parseDefinition, parseTypeSystemExtension, all parse functions"]}
{"id": "C57", "title": "Validation messages tell the reported errors apart", "statement": "Validation errors reach a caller as messages. For every parsed input (any bytes) and every schema built from parsed input (or none), two reported errors with the same message are the same error: same rule and same names, kinds, places and types. Hence whether a given rule was violated by a given name can be read off the messages. The one message about extending a type of another kind always names the kind the type does have.", "quantifier": "all inputs, all pairs of errors reported for any documents, by query or type-system validation, with any schema whose directive arguments are words", "why_tests_cant": "Tests compare single messages; that no two different errors of any documents collide is a statement about all pairs of errors over all names.", "anchors": ["validation/errors.go: all constructors", "validation/rules/rule_possible_type_extensions.go", "ast/ast.go: Type.String, TypeDefinitionKind.String, OperationDefinitionKind.String"]}
{"id": "C58", "title": "Directives are reported as misplaced exactly where their definition does not list the place", "statement": "For every parsed input: validation reports 'Directive \"n\" may not be used on P.' iff a directive named n stands in the document at a place the language calls P (an operation by its kind, a field, fragment spread, inline fragment, fragment definition, schema, type by its kind, field definition, argument definition, enum value, input field) and the definition in force for n does not list P. Every directive in the document stands at such a place. A parsed definition lists exactly the names written after 'on' in the source; skip and include list FIELD, FRAGMENT_SPREAD, INLINE_FRAGMENT, deprecated lists FIELD_DEFINITION and ENUM_VALUE.", "quantifier": "all inputs that parse, all given schemas, all directive names and places", "why_tests_cant": "There are nineteen places times all definitions and nestings; the bit representation could alias places only in combinations tests do not enumerate.", "anchors": ["validation/rules/rule_known_directives.go", "ast/ast.go: DirectiveLocation, DirectiveLocationsByName, NamesByDirectiveLocations", "language/parser.go: parseDirectives, parseDirectiveLocations", "graphql/builtin.go"]}
{"id": "C59", "title": "A parse error is reported at the first token that cannot be continued", "statement": "When Parse reports an error for a (valid UTF-8, NUL-free, regular) source, the source splits at the blamed token: the text before it can be completed by further text to a document that Parse accepts, and no source whose tokens begin with the same tokens up to the one where the parser stopped is accepted, whatever follows and wherever they stand. The blamed token is the one the message quotes (line, column, kind, text), except: a missing value (message without position), a number strconv refuses, 'true'/'false'/'null' as an enum value (token just read), a fragment called 'on' (the message quotes the token after it) and a list type where only a name may stand (the message quotes a token after it). If the end of the source is to blame, adding lines makes it a document; if adding lines makes it a document, the parser had read all tokens of the source.", "quantifier": "every source text, every error, every continuation of the text, every acceptance function for float literals", "why_tests_cant": "viability of a prefix is an existential over all continuations and hopelessness a universal one; tests check single malformed documents", "anchors": ["language/parser.go: Parse, parseDefinition and all parse* functions, mustConsume, unexpected", "language/lexer.go: Scan"]}
{"id": "C60", "title": "A server response marshals to the JSON of its data", "statement": "Response.MarshalGraphQL (lab/server) returns bytes that decode, as JSON, to an object with the single member \"data\" whose value is the response's data: the same integers, strings, booleans and nulls, floats to the nearest multiple of 0.00001, arrays and objects with their elements and fields in order - provided the data are null or an object, every kind is one of the seven, strings and names contain no quotation mark, backslash, control character or ill-formed UTF-8, and floats are finite. An error is returned exactly when the data are neither null nor an object or some value in them has an unknown kind. With a NaN or infinity anywhere the call succeeds but its bytes are not JSON; a quotation mark in a string can forge further fields; the response's errors are never sent. ResponseValue.MarshalGraphQL appends to the buffer, keeping what it held.", "quantifier": "every response: every tree of values of any depth and width, every integer, float, string and kind, and every previous content of the buffer", "why_tests_cant": "the trees, strings and numbers are unbounded; tests marshal a few literals", "anchors": ["lab/server/response.go: ResponseValue.MarshalGraphQL, Response.MarshalGraphQL"]}
{"id": "C61", "title": "The literal of an Illegal token says what is wrong", "statement": "When scanning a source text ends with an Illegal token, the token's literal describes the text from that place on: it is the character itself when no token starts with it; otherwise it names the three characters found instead of '...', the character found where a number needs a digit (or the digit after a leading zero), the control character or end of text inside a string, the first bad escape of a string that is closed (an unclosed string or a control character is reported in preference), or says that a block string is not closed or contains a control character. Characters are quoted in the message as Go's %q does, and the end of the text is shown as '\\x00'.", "quantifier": "every source text of Unicode characters without NUL, and every place where its tokens stop", "why_tests_cant": "the messages depend on the whole text up to the failure: which escape is first, whether the string is closed later, how many digits precede; tests compare a few literals", "anchors": ["language/lexer.go: Scan, scanPunctuator, scanNumber, readDigits, scanString, escapedChar, scanBlockString, isTripQuotes"]}
{"id": "C62", "title": "The text of a type is the type", "statement": "Type.String() writes a type in GraphQL syntax: for every type built of names, lists and non-null marks, placing the text as the type of a variable or of a field in a source makes the parser produce exactly that type again, so different types have different texts. Every type of a parsed document (valid UTF-8 without NUL) is of this kind unless its list bracket was not closed, for which the text is empty. Hence the error messages that cite types (missing required directive argument, field type that does not match its interface) are equal only if all the names and types they are about are equal.", "quantifier": "all types of any nesting depth, all parsed documents and all types in them, all pairs of messages", "why_tests_cant": "types nest without bound and the claim compares the printer with the lexer and the parser on all of them; tests compare a few literals", "anchors": ["ast/ast.go: Type.String, nonNullable", "language/parser.go: parseType", "validation/errors.go: MissingDirectiveArgError", "validation/schema_validate.go: validateObjectImplementsInterface"]}
{"id": "C63", "title": "The order of the definitions does not matter", "statement": "For two sources whose parsed documents have the same definitions in different orders, ParseDoc returns the document in both cases or reports, in both cases, the same errors equally often (given that type-system definitions in it use no variables). ParseSDLDoc returns in both cases schemas that answer every look-up (type, directive, root operation types, schema definition) identically, or reports errors in both cases - the same set if no type or directive name is defined twice - provided only that schema definition and extensions keep their relative order and so do the extensions of each type. Files joined by newlines may thus be joined in any order. Each proviso is necessary: a counterexample is proved for each.", "quantifier": "every pair of sources (of any length) whose documents are permutations of each other, every existing schema or none, every order in which Go ranges over the maps", "why_tests_cant": "It relates two runs on any two permutations of any document; the rules run in document order over a shared mutable context, so any state leaking from one definition to the next would only show for particular orders.", "anchors": ["graphqlparser.go: ParseDoc, ParseSDLDoc", "validation/rules.go", "validation/context.go: NewContext, NewSDLContext", "validation/schema_build.go: BuildSchema", "validation/schema_validate.go: ValidateSchema"]}
{"id": "C64", "title": "The built-in definitions are those of a fixed prelude", "statement": "A type-system document that neither defines nor extends ID, String, @skip, @include, @deprecated is validated by ParseSDLDoc (without an existing schema) exactly as the same document with a fixed text before it - `scalar ID`, `scalar String` and the specification's definitions of @skip(if: Boolean!), @include(if: Boolean!) and @deprecated(reason: String = \"No longer supported\") with their descriptions and locations: the same errors equally often, the same acceptance, and schemas that answer every look-up identically. Limits, proved as refutations: the built-in scalars cannot be extended although they are in the schema, and Int, Float and Boolean are accepted as type names but never in the schema.", "quantifier": "every such document, every order in which Go ranges over the maps", "why_tests_cant": "It relates two runs on every document of any size; tests only see the built-ins in particular documents.", "anchors": ["graphql/builtin.go: SkipDirective, IncludeDirective, DeprecatedDirective, SpecifiedDirectives, SpecifiedTypes", "validation/context.go: DirectiveDefinition, TypeDefinition", "validation/schema_build.go: BuildSchema"]}
{"id": "C65", "title": "A document holds only what its source writes, in order, and is no bigger", "statement": "If ParseDocument/Parse accepts a source, then every name, string, float literal and description held anywhere in the returned AST is the literal of a token of the source of the corresponding kind, different texts come from different tokens, and they occur in the AST in the order in which the source writes them. The AST has at most as many nodes (definitions, selections, arguments, values, types, directives, fields, ...) and texts as the source has bytes, and if the source is valid UTF-8 (without NUL, and with regular block strings) all its texts together take at most as many bytes as the source; for ill-formed UTF-8 the last bound fails (bytes become U+FFFD, three bytes each).", "quantifier": "every byte sequence that is accepted; every well-formed text for the bound in bytes", "why_tests_cant": "Amplification (a small query making a huge AST) and mixed-up, duplicated or invented names can be caused by any combination of constructs, at any depth; tests look at a few sources.", "anchors": ["language/parser.go: Parse, parseDefinition, parseSelection, parseValue, parseType, parseDirectives, parseTypeDefinition", "language/lexer.go: Scan, scanString, blockStringLiteral"]}
{"id": "C66", "title": "A message about a schema tells what is wrong with it", "statement": "Validating a schema that was built from source text yields a message for every flaw of the schema (a reserved or malformed name, a missing or non-object root type, an argument defined twice on a directive or field, a type without fields, a field that is not of an output type, an argument that is not of an input type, an implemented type that is no interface or is listed twice, an interface field that is missing or of an unsuitable type), and nothing else; and a message stands for exactly one flaw: from its text one can read off which flaw it is, and of which type, field, argument, interface or directive of that name, whatever other schema the text might have come from. For schemas put together by hand from names containing punctuation two flaws can have the same message.", "quantifier": "all source texts, all schemas built from them, all orders of visiting the maps, all messages", "why_tests_cant": "That no two of infinitely many flaws share a message is a statement about all pairs of names and types; tests compare a few messages.", "anchors": ["validation/schema_validate.go: ValidateSchema, validateRootTypes, validateDirectives, validateTypes, validateFields, validateObjectInterfaces, validateObjectImplementsInterface, validateName", "validation/errors.go", "graphqlparser.go: ParseSDLDoc", "ast/ast.go: Type.String"]}
{"id": "C67", "title": "Suggestions find what one typing error has spoilt", "statement": "Given an edit distance that counts the least number of insertions, deletions and replacements of characters, SuggestionList(input, options) contains exactly the options that need, after lower-casing, no more edits than half the length of the longer of option and input (and than one); so an option that differs from the input in case only or by one insertion, deletion or replacement is always suggested, an option that is too long or too short never, being suggested is mutual between input and option, and an option that differs in case only comes before all options that take more than one edit. A swap of two adjacent characters, which the documentation counts as one edit, counts as two: for the input ab the option ba is not suggested.", "quantifier": "all inputs, all lists of options, all lower-casing functions, all correct implementations of the edit distance", "why_tests_cant": "Least numbers of edits quantify over all edit sequences; tests list a few pairs of words.", "anchors": ["validation/utils.go: SuggestionList, lexicalDistance"]}
{"id": "C68", "title": "A source can be cut into its definitions", "statement": "A source that parses to n definitions can be cut into n consecutive pieces of text that together are the source and each of which, parsed alone, yields exactly the corresponding definition; every piece but the first begins where its definition does, so that (on sources without carriage returns, and without triple quotes for the columns) the line and column recorded for the definition are the position at which its piece begins. (For well-formed UTF-8 sources with regular block strings; unclosed list types, which the parser tolerates, included.)", "quantifier": "all clean sources that parse, all documents", "why_tests_cant": "That no definition of any source needs text of another definition, however the definitions are written and however many there are, is a statement about all documents.", "anchors": ["language/parser.go: Parser.Parse, parseDefinition", "language/lexer.go: Lexer.Scan"]}
{"id": "C69", "title": "The literals of the tokens lie in the caller's buffer", "statement": "Names, numbers, one-character punctuators and non-empty strings written on one line without a backslash are not copied: their literals are pieces of the buffer that was passed in, pairwise disjoint, each within the text of its token. Hence, after the call, overwriting a byte that a token's literal covers changes this token and no other, and overwriting any other byte (comments, blanks, quotation marks, strings with escapes) changes no token. All other literals have memory of their own. Every name a parsed document holds is such a piece, so a caller who reuses the buffer changes the document.", "quantifier": "all byte strings, all tokens of their scan, all bytes overwritten afterwards; all parsed documents", "why_tests_cant": "Which bytes of the buffer stay alive after the call depends on every token of every source; a test sees one buffer and one overwriting.", "anchors": ["language/util.go: btos", "language/lexer.go: scanName, scanNumber, scanPunctuator, scanString, scanBlockString, blockStringLiteral", "language/parser.go: uses of Token.Literal"]}
{"id": "C70", "title": "Building a schema merges the extensions into the document itself, and can be done only once", "statement": "BuildSchema appends, in place, the lists of every extension to the corresponding list of the extended type (and of the schema definition): afterwards the definition in the document reads its own elements followed by those of all its extensions in order; the list of each extension reads its own elements followed by those of the later extensions (unless it or the definition's list is empty); every other list is unchanged. Called a second time on the same document, BuildSchema never returns if some non-empty list was extended by an extension other than the last, or if the operation types were extended; otherwise it returns, but every list that was extended has become endless, so that whatever walks through it never comes back, while the lists that were not extended are unchanged.", "quantifier": "all schema definitions, types and extensions of all kinds, in any number and of any length, laid out in memory without sharing cells; all visiting orders", "why_tests_cant": "the effect depends on which lists are empty and how many extensions contribute; non-termination cannot be observed by a test", "anchors": ["validation/schema_build.go: BuildSchema, mergeSchemaExtensions, mergeTypeExtensions, buildSchemaDefinition", "ast/lists.go: Join, ForEach"]}
{"id": "C71", "title": "Recursion depth of Parse follows the nesting of the source", "statement": "Parse recurses (in parseType, parseValue and parseSelectionSet) as deep as its source is nested: if nowhere in the source's tokens more than h braces and square brackets are open, no more than h+1 calls of these functions are ever active at the same time, and nothing in a returned document is nested deeper than the number of calls that were. Less room than the least sufficient number makes the parse fail, more room changes nothing. No fixed depth is enough for all sources: for every n a source of 3n+3 bytes is accepted and needs exactly n+2 active calls (so the size of the Go stack bounds what can be parsed: there is no limit in the code).", "quantifier": "for all sources (accepted, rejected and panicking) and all depths", "why_tests_cant": "A test nests to one depth; a hidden extra recursion (per token, per sibling) or a missing one shows only at depths and widths the test does not have.", "anchors": ["language/parser.go:387 parseSelectionSet", "language/parser.go:586 parseValue", "language/parser.go:700 parseType"]}
{"id": "C72", "title": "Dumped documents are laid out in indented lines as they are nested", "statement": "For every text that parses, whose document has no line feed in a string value, and no description of an argument or of a field of an input object, the text Fdump/Sdump writes is laid out in lines as follows. Definitions are separated by exactly one empty line, and the text does not end with a line feed. An operation or fragment is a line that begins with its keyword and name (nothing, for a lone anonymous query) and ends in {, its selections, and a line with }. A selection at depth n is indented by 2n spaces and begins with its alias and name, spread or type condition; with selections of its own the line ends in ' {', they follow one level deeper, and a line with the closing brace at its own indentation ends it; otherwise it is that one line. Arguments, directives, variables and their nested values never add a line. Types with fields, enum values or input fields, and schemas with operation types, are a line ending in ' {', one line indented by two spaces for each of them in order, beginning with its name, and a line with }; with none they are one line without braces. A type with three or more interfaces is a line ending in ' implements', then a line for each, '  & ' (two levels in when the type has fields) and its name, the last of which takes the directives and the opening brace. Unions and directive definitions are one line with up to two members or locations and, from three on, a line for each below it, '  | ' and the name, members in order and locations in the order of the specification. A description of a type, directive, field or enum value is its own lines, not indented, between two lines of three quotes, above the line it belongs to. The lines are determined by the text. The printing of floats is arbitrary but must not contain line feeds.", "quantifier": "all input texts (any bytes), all documents they parse to that meet the two conditions, all nestings of selections and values, all ways of printing floats on one line", "why_tests_cant": "Indentation depends on a depth passed down through mutually recursive writers, and stray or missing line feeds appear only for particular combinations of parts; golden files fix a handful of combinations and depths", "anchors": ["ast/dumper.go: Fdump, Sdump, dumpDefinitions, dumpSelections, dumpSelection, dumpFieldSelection, dumpInlineFragment, dumpOperationDefinition, dumpFragmentDefinition, dumpSchemaDefinition, dumpSchemaExtension, dumpFieldsDefinition, dumpEnumValuesDefinition, dumpInputFieldsDefinition, dumpImplementsInterfaces, dumpUnionMemberTypes, dumpDirectiveLocations, writeString"]}
{"id": "C73", "title": "The walker's recursion follows the nesting of the document", "statement": "At every moment while a document is walked, the nodes entered and not yet left - the calls of the walker in progress - are at most 3k + 13 if nothing in the document is nested more than k deep (list and object values, list types, selection sets), whatever handlers are registered and whatever they do; the bound is reached for every k. Conversely, if at most k nodes are ever open, nothing in the document is nested more than k deep. So for a source in which at most h braces and square brackets are open anywhere, at most 3h + 16 nodes are ever open; and since sources may be nested arbitrarily, for every n there is a source of 3n + 3 bytes whose document has more than n nodes open at once: nothing limits the recursion.", "quantifier": "all documents, all depths, all moments of the traversal, all registered handlers; all sources that parse", "why_tests_cant": "The bound must hold for every shape of document and every moment of the walk, and the absence of any limit concerns documents of every depth", "anchors": ["validation/walker.go: Walk, walkDocument, walkDefinitions, walkSelections, walkSelection, walkValue, walkListValue, walkObjectValue, walkType, walkDirectives, walkArguments"]}
