(** * LexerGolden: the model reproduces the golden outputs recorded by the projects own lexer tests
    (language/testdata/ScanGolden.*.json; inputs as in language/lexer_test.go:121-205).  These are tests of the
    model, not property proofs.  For Illegal tokens whose message uses Gos %q only kind, line and column are compared. *)
From Verif Require Import Base Utf8 Lexer.

Definition tk (k : kind) (l : bytes) (ln : nat) (c : Z) : token := mkTok k l ln c.
Definition lexed (i : bytes) : list token := match lex_all i with Ok ts _ => ts | _ => [] end.
Definition strip (t : token) : token := match tkind t with KIllegal => mkTok KIllegal [] (tline t) (tcol t) | _ => t end.

Example golden_001 : map strip (lexed (B "0")) =
  [tk KInt (B "0") 1 1;
   tk KEOF [] 1 2].
Proof. vm_compute. reflexivity. Qed.

Example golden_002 : map strip (lexed (B "123456789")) =
  [tk KInt (B "123456789") 1 1;
   tk KEOF [] 1 10].
Proof. vm_compute. reflexivity. Qed.

Example golden_003 : map strip (lexed (B "-123456789")) =
  [tk KInt (B "-123456789") 1 1;
   tk KEOF [] 1 11].
Proof. vm_compute. reflexivity. Qed.

Example golden_004 : map strip (lexed (B "1.1")) =
  [tk KFloat (B "1.1") 1 1;
   tk KEOF [] 1 4].
Proof. vm_compute. reflexivity. Qed.

Example golden_005 : map strip (lexed (B "-1.1")) =
  [tk KFloat (B "-1.1") 1 1;
   tk KEOF [] 1 5].
Proof. vm_compute. reflexivity. Qed.

Example golden_006 : map strip (lexed (B "10E99")) =
  [tk KFloat (B "10E99") 1 1;
   tk KEOF [] 1 6].
Proof. vm_compute. reflexivity. Qed.

Example golden_007 : map strip (lexed (B "-10E99")) =
  [tk KFloat (B "-10E99") 1 1;
   tk KEOF [] 1 7].
Proof. vm_compute. reflexivity. Qed.

Example golden_008 : map strip (lexed (B "1.1e99")) =
  [tk KFloat (B "1.1e99") 1 1;
   tk KEOF [] 1 7].
Proof. vm_compute. reflexivity. Qed.

Example golden_009 : map strip (lexed (B "-1.1e-99")) =
  [tk KFloat (B "-1.1e-99") 1 1;
   tk KEOF [] 1 9].
Proof. vm_compute. reflexivity. Qed.

Example golden_010 : map strip (lexed (B "-")) =
  [tk KIllegal [] 1 1].
Proof. vm_compute. reflexivity. Qed.

Example golden_011 : map strip (lexed ((B "-" ++ [bz 231] ++ [bz 149] ++ [bz 140]))) =
  [tk KIllegal [] 1 1].
Proof. vm_compute. reflexivity. Qed.

Example golden_012 : map strip (lexed ((B "1." ++ [bz 231] ++ [bz 149] ++ [bz 140]))) =
  [tk KIllegal [] 1 1].
Proof. vm_compute. reflexivity. Qed.

Example golden_013 : map strip (lexed (B "01")) =
  [tk KIllegal [] 1 1].
Proof. vm_compute. reflexivity. Qed.

Example golden_014 : map strip (lexed ((B "-1.1e" ++ [bz 231] ++ [bz 149] ++ [bz 140]))) =
  [tk KIllegal [] 1 1].
Proof. vm_compute. reflexivity. Qed.

Example golden_101 : map strip (lexed (B "!$()...:=@[]{|}")) =
  [tk KPunct (B "!") 1 1;
   tk KPunct (B "$") 1 2;
   tk KPunct (B "(") 1 3;
   tk KPunct (B ")") 1 4;
   tk KPunct (B "...") 1 5;
   tk KPunct (B ":") 1 8;
   tk KPunct (B "=") 1 9;
   tk KPunct (B "@") 1 10;
   tk KPunct (B "[") 1 11;
   tk KPunct (B "]") 1 12;
   tk KPunct (B "{") 1 13;
   tk KPunct (B "|") 1 14;
   tk KPunct (B "}") 1 15;
   tk KEOF [] 1 16].
Proof. vm_compute. reflexivity. Qed.

Example golden_102 : map strip (lexed (B " ! $ ( ) ... : = @ [ ] { | }")) =
  [tk KPunct (B "!") 1 2;
   tk KPunct (B "$") 1 4;
   tk KPunct (B "(") 1 6;
   tk KPunct (B ")") 1 8;
   tk KPunct (B "...") 1 10;
   tk KPunct (B ":") 1 14;
   tk KPunct (B "=") 1 16;
   tk KPunct (B "@") 1 18;
   tk KPunct (B "[") 1 20;
   tk KPunct (B "]") 1 22;
   tk KPunct (B "{") 1 24;
   tk KPunct (B "|") 1 26;
   tk KPunct (B "}") 1 28;
   tk KEOF [] 1 29].
Proof. vm_compute. reflexivity. Qed.

Example golden_103 : map strip (lexed ((B "." ++ [bz 231] ++ [bz 149] ++ [bz 140] ++ [bz 231] ++ [bz 149] ++ [bz 140]))) =
  [tk KIllegal [] 1 1].
Proof. vm_compute. reflexivity. Qed.

Example golden_201 : map strip (lexed (B "# only comment")) =
  [tk KEOF [] 1 15].
Proof. vm_compute. reflexivity. Qed.

Example golden_202 : map strip (lexed ((B "# line 1" ++ [bz 13] ++ B "foo"))) =
  [tk KName (B "foo") 2 1;
   tk KEOF [] 2 4].
Proof. vm_compute. reflexivity. Qed.

Example golden_203 : map strip (lexed ((B "# line 1" ++ [bz 10] ++ B "foo"))) =
  [tk KName (B "foo") 2 1;
   tk KEOF [] 2 4].
Proof. vm_compute. reflexivity. Qed.

Example golden_204 : map strip (lexed ((B "# line 1" ++ [bz 13] ++ [bz 10] ++ B "foo"))) =
  [tk KName (B "foo") 2 1;
   tk KEOF [] 2 4].
Proof. vm_compute. reflexivity. Qed.

Example golden_205 : map strip (lexed ((B "# line 1" ++ [bz 10] ++ [bz 13] ++ B "foo"))) =
  [tk KName (B "foo") 3 1;
   tk KEOF [] 3 4].
Proof. vm_compute. reflexivity. Qed.

Example golden_206 : map strip (lexed ((B "# line 1" ++ [bz 13] ++ B "# line 2" ++ [bz 13] ++ B "query"))) =
  [tk KName (B "query") 3 1;
   tk KEOF [] 3 6].
Proof. vm_compute. reflexivity. Qed.

Example golden_207 : map strip (lexed ((B "# line 1" ++ [bz 10] ++ B "# line 2" ++ [bz 10] ++ B "query"))) =
  [tk KName (B "query") 3 1;
   tk KEOF [] 3 6].
Proof. vm_compute. reflexivity. Qed.

Example golden_208 : map strip (lexed ((B "# line 1" ++ [bz 13] ++ [bz 10] ++ B "# line 2" ++ [bz 13] ++ [bz 10] ++ B "query"))) =
  [tk KName (B "query") 3 1;
   tk KEOF [] 3 6].
Proof. vm_compute. reflexivity. Qed.

Example golden_301 : map strip (lexed (B """foo""")) =
  [tk KString (B "foo") 1 1;
   tk KEOF [] 1 6].
Proof. vm_compute. reflexivity. Qed.

Example golden_302 : map strip (lexed (B """foo \n bar""")) =
  [tk KString ((B "foo " ++ [bz 10] ++ B " bar")) 1 1;
   tk KEOF [] 1 13].
Proof. vm_compute. reflexivity. Qed.

Example golden_303 : map strip (lexed (B """foo \u4e16""")) =
  [tk KString ((B "foo " ++ [bz 228] ++ [bz 184] ++ [bz 150])) 1 1;
   tk KEOF [] 1 13].
Proof. vm_compute. reflexivity. Qed.

Example golden_304 : map strip (lexed (B """foo")) =
  [tk KIllegal [] 1 1].
Proof. vm_compute. reflexivity. Qed.

Example golden_305 : map strip (lexed (B """\""""")) =
  [tk KString (B """") 1 1;
   tk KEOF [] 1 5].
Proof. vm_compute. reflexivity. Qed.

Example golden_306 : map strip (lexed (B """\\""")) =
  [tk KString (B "\") 1 1;
   tk KEOF [] 1 5].
Proof. vm_compute. reflexivity. Qed.

Example golden_307 : map strip (lexed (B """\/""")) =
  [tk KString (B "/") 1 1;
   tk KEOF [] 1 5].
Proof. vm_compute. reflexivity. Qed.

Example golden_308 : map strip (lexed (B """\b""")) =
  [tk KString (([bz 8])) 1 1;
   tk KEOF [] 1 5].
Proof. vm_compute. reflexivity. Qed.

Example golden_309 : map strip (lexed (B """\f""")) =
  [tk KString (([bz 12])) 1 1;
   tk KEOF [] 1 5].
Proof. vm_compute. reflexivity. Qed.

Example golden_310 : map strip (lexed (B """\n""")) =
  [tk KString (([bz 10])) 1 1;
   tk KEOF [] 1 5].
Proof. vm_compute. reflexivity. Qed.

Example golden_311 : map strip (lexed (B """\r""")) =
  [tk KString (([bz 13])) 1 1;
   tk KEOF [] 1 5].
Proof. vm_compute. reflexivity. Qed.

Example golden_312 : map strip (lexed (B """\t""")) =
  [tk KString (([bz 9])) 1 1;
   tk KEOF [] 1 5].
Proof. vm_compute. reflexivity. Qed.

Example golden_313 : map strip (lexed (B """\uAZ""")) =
  [tk KIllegal [] 1 1].
Proof. vm_compute. reflexivity. Qed.

Example golden_314 : map strip (lexed (B """\z""")) =
  [tk KIllegal [] 1 1].
Proof. vm_compute. reflexivity. Qed.

Example golden_315 : map strip (lexed ((B """foo" ++ [bz 10] ++ B """"))) =
  [tk KIllegal [] 1 1].
Proof. vm_compute. reflexivity. Qed.

Example golden_316 : map strip (lexed ((B """foo" ++ [bz 13] ++ [bz 10] ++ B """"))) =
  [tk KIllegal [] 1 1].
Proof. vm_compute. reflexivity. Qed.

Example golden_317 : map strip (lexed (B """\uAzAz""")) =
  [tk KIllegal [] 1 1].
Proof. vm_compute. reflexivity. Qed.

Example golden_318 : map strip (lexed (B """\u0080""")) =
  [tk KString (([bz 194] ++ [bz 128])) 1 1;
   tk KEOF [] 1 9].
Proof. vm_compute. reflexivity. Qed.

Example golden_319 : map strip (lexed (B """\uFFFF""")) =
  [tk KString (([bz 239] ++ [bz 191] ++ [bz 191])) 1 1;
   tk KEOF [] 1 9].
Proof. vm_compute. reflexivity. Qed.

Example golden_320 : map strip (lexed ((B """" ++ [bz 240] ++ [bz 159] ++ [bz 152] ++ [bz 128] ++ B """"))) =
  [tk KString (([bz 240] ++ [bz 159] ++ [bz 152] ++ [bz 128])) 1 1;
   tk KEOF [] 1 4].
Proof. vm_compute. reflexivity. Qed.

Example golden_321 : map strip (lexed (B """\uD800""")) =
  [tk KString (([bz 239] ++ [bz 191] ++ [bz 189])) 1 1;
   tk KEOF [] 1 9].
Proof. vm_compute. reflexivity. Qed.

Example golden_401 : map strip (lexed (B """""""""""""")) =
  [tk KString [] 1 1;
   tk KEOF [] 1 7].
Proof. vm_compute. reflexivity. Qed.

Example golden_402 : map strip (lexed (B """""""foo""""""")) =
  [tk KString (B "foo") 1 1;
   tk KEOF [] 1 10].
Proof. vm_compute. reflexivity. Qed.

Example golden_403 : map strip (lexed (B """""""foo """" bar""""""")) =
  [tk KString (B "foo """" bar") 1 1;
   tk KEOF [] 1 17].
Proof. vm_compute. reflexivity. Qed.

Example golden_404 : map strip (lexed (B """""""\t \u1234""""""")) =
  [tk KString (B "\t \u1234") 1 1;
   tk KEOF [] 1 16].
Proof. vm_compute. reflexivity. Qed.

Example golden_405 : map strip (lexed ((B """""""" ++ [bz 13] ++ B "foo" ++ [bz 13] ++ B """"""""))) =
  [tk KString (B "foo") 1 1;
   tk KEOF [] 3 12].
Proof. vm_compute. reflexivity. Qed.

Example golden_406 : map strip (lexed ((B """""""" ++ [bz 10] ++ B "foo" ++ [bz 10] ++ B """"""""))) =
  [tk KString (B "foo") 1 1;
   tk KEOF [] 3 12].
Proof. vm_compute. reflexivity. Qed.

Example golden_407 : map strip (lexed ((B """""""" ++ [bz 13] ++ [bz 10] ++ B "foo" ++ [bz 13] ++ [bz 10] ++ B """"""""))) =
  [tk KString (B "foo") 1 1;
   tk KEOF [] 5 14].
Proof. vm_compute. reflexivity. Qed.

Example golden_408 : map strip (lexed ((B """""""" ++ [bz 10] ++ [bz 13] ++ B "foo" ++ [bz 10] ++ [bz 13] ++ B """"""""))) =
  [tk KString (B "foo") 1 1;
   tk KEOF [] 5 14].
Proof. vm_compute. reflexivity. Qed.

Example golden_409 : map strip (lexed ((B """""""" ++ [bz 13] ++ B "\""""""" ++ [bz 13] ++ B """"""""))) =
  [tk KString (B """""""") 1 1;
   tk KEOF [] 3 13].
Proof. vm_compute. reflexivity. Qed.

Example golden_410 : map strip (lexed ((B """""""" ++ [bz 10] ++ B "\""""""" ++ [bz 10] ++ B """"""""))) =
  [tk KString (B """""""") 1 1;
   tk KEOF [] 3 13].
Proof. vm_compute. reflexivity. Qed.

Example golden_411 : map strip (lexed ((B """""""" ++ [bz 13] ++ [bz 10] ++ B "\""""""" ++ [bz 13] ++ [bz 10] ++ B """"""""))) =
  [tk KString (B """""""") 1 1;
   tk KEOF [] 5 15].
Proof. vm_compute. reflexivity. Qed.

Example golden_412 : map strip (lexed ((B """""""" ++ [bz 10] ++ [bz 13] ++ B "\""""""" ++ [bz 10] ++ [bz 13] ++ B """"""""))) =
  [tk KString (B """""""") 1 1;
   tk KEOF [] 5 15].
Proof. vm_compute. reflexivity. Qed.

Example golden_413 : map strip (lexed (B """""""foo \"""""" bar""""""")) =
  [tk KString (B "foo """""" bar") 1 1;
   tk KEOF [] 1 19].
Proof. vm_compute. reflexivity. Qed.

Example golden_414 : map strip (lexed (B """""""foo \u1234 "" \""""""""""""")) =
  [tk KString (B "foo \u1234 "" """"""") 1 1;
   tk KEOF [] 1 24].
Proof. vm_compute. reflexivity. Qed.

Example golden_415 : map strip (lexed (B """""""""")) =
  [tk KIllegal [] 1 1].
Proof. vm_compute. reflexivity. Qed.

Example golden_416 : map strip (lexed (B """""""""""")) =
  [tk KIllegal [] 1 1].
Proof. vm_compute. reflexivity. Qed.

Example golden_417 : map strip (lexed (B """""""\""""""""""")) =
  [tk KIllegal [] 1 1].
Proof. vm_compute. reflexivity. Qed.

Example golden_418 : map strip (lexed (B """""""\u1234""""")) =
  [tk KIllegal [] 1 1].
Proof. vm_compute. reflexivity. Qed.

Example golden_419 : map strip (lexed ((B """""""" ++ [bz 240] ++ [bz 159] ++ [bz 152] ++ [bz 128] ++ B """"""""))) =
  [tk KString (([bz 240] ++ [bz 159] ++ [bz 152] ++ [bz 128])) 1 1;
   tk KEOF [] 1 8].
Proof. vm_compute. reflexivity. Qed.

Example golden_420 : map strip (lexed (B """""""\""""a""""""")) =
  [tk KString (B "\""""a") 1 1;
   tk KEOF [] 1 11].
Proof. vm_compute. reflexivity. Qed.

Example golden_998 : map strip (lexed ((B "query foo " ++ [bz 240] ++ [bz 159] ++ [bz 152] ++ [bz 131] ++ B " { bar baz }"))) =
  [tk KName (B "query") 1 1;
   tk KName (B "foo") 1 7;
   tk KIllegal [] 1 11].
Proof. vm_compute. reflexivity. Qed.

Example golden_999 : map strip (lexed (([bz 10] ++ B "        # Mutation for testing different token types." ++ [bz 10] ++ B "        mutation {" ++ [bz 10] ++ B "            createPost(" ++ [bz 10] ++ B "                id: 1024" ++ [bz 10] ++ B "                title: ""String Value""" ++ [bz 10] ++ B "                content: """"""" ++ [bz 10] ++ B "                    Hello," ++ [bz 10] ++ [bz 10] ++ B "                        Welcome to GraphQL." ++ [bz 10] ++ B "                        Let's make this string a little bigger then. Because the larger this string" ++ [bz 10] ++ B "                        becomes, the more we can test our lexer." ++ [bz 10] ++ [bz 10] ++ B "                    From, Bucketd" ++ [bz 10] ++ B "                """"""" ++ [bz 10] ++ B "                readTime: 2.742" ++ [bz 10] ++ B "            ) @async(bar: $baz)" ++ [bz 10] ++ B "        }" ++ [bz 10] ++ B "    "))) =
  [tk KName (B "mutation") 3 9;
   tk KPunct (B "{") 3 18;
   tk KName (B "createPost") 4 13;
   tk KPunct (B "(") 4 23;
   tk KName (B "id") 5 17;
   tk KPunct (B ":") 5 19;
   tk KInt (B "1024") 5 21;
   tk KName (B "title") 6 17;
   tk KPunct (B ":") 6 22;
   tk KString (B "String Value") 6 24;
   tk KName (B "content") 7 17;
   tk KPunct (B ":") 7 24;
   tk KString ((B "Hello," ++ [bz 10] ++ [bz 10] ++ B "    Welcome to GraphQL." ++ [bz 10] ++ B "    Let's make this string a little bigger then. Because the larger this string" ++ [bz 10] ++ B "    becomes, the more we can test our lexer." ++ [bz 10] ++ [bz 10] ++ B "From, Bucketd")) 7 26;
   tk KName (B "readTime") 16 17;
   tk KPunct (B ":") 16 25;
   tk KFloat (B "2.742") 16 27;
   tk KPunct (B ")") 17 13;
   tk KPunct (B "@") 17 15;
   tk KName (B "async") 17 16;
   tk KPunct (B "(") 17 21;
   tk KName (B "bar") 17 22;
   tk KPunct (B ":") 17 25;
   tk KPunct (B "$") 17 27;
   tk KName (B "baz") 17 28;
   tk KPunct (B ")") 17 31;
   tk KPunct (B "}") 18 9;
   tk KEOF [] 19 5].
Proof. vm_compute. reflexivity. Qed.
