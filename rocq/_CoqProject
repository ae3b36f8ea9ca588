-Q theories Verif

theories/Base.v
theories/Utf8.v
theories/Lexer.v
theories/LexerGolden.v
theories/Utf8Proofs.v
theories/LexerTotal.v
theories/LexCP.v
theories/LexRefine.v
theories/LexSpec.v
theories/LexAgree.v
theories/LexMain.v
theories/LexCrlf.v
theories/LexProps.v
theories/PropLex.v
theories/AST.v
theories/Parser.v
theories/ParserRel.v
theories/Grammar.v
theories/GrammarProps.v
theories/GrammarFrame.v
theories/ParserWp.v
theories/ParserSound.v
theories/ParserComplete.v
theories/ParserComplete2.v
theories/PropParse.v
theories/ParserLocal.v
theories/PropParseErr.v
theories/OpNames.v
theories/PropOps.v
theories/PropTypes.v
theories/PropCaller.v
theories/Positions.v
theories/PropText.v
theories/PropConcat.v
theories/LinkedList.v
theories/PropList.v
theories/Walker.v
theories/WalkSpec.v
theories/PropWalk.v
theories/Context.v
theories/Rules.v
theories/Dfs.v
theories/CtxProofs.v
theories/RuleProofs.v
theories/RuleSpec.v
theories/QueryProofs.v
theories/SdlProofs.v
theories/Samples.v
theories/PropRules.v
theories/SchemaBuild.v
theories/BuildProofs.v
theories/Utils.v
theories/SchemaValidate.v
theories/SchemaSpec.v
theories/ValidateProofs.v
theories/SchemaProofs.v
theories/Json.v
theories/Errors.v
theories/Suggest.v
theories/PropSdl.v
theories/PropErrors.v
theories/PropSuggest.v
theories/PropBuild.v
theories/PropSchema.v
theories/ParsedNames.v
theories/Top.v
theories/TopProofs.v
theories/PropTop.v
theories/Dumper.v
theories/DumperGolden.v
theories/DumpSpec.v
theories/DumpText.v
theories/DumpWords.v
theories/DumpBlocks.v
theories/DumpProofs.v
theories/DumpGrammar.v
theories/DumpMain.v
theories/DumpTotal.v
theories/PropDump.v
theories/PropSound.v
theories/Concurrent.v
theories/PropConc.v
theories/Restyle.v
theories/PropUse.v
theories/WellFormed.v
theories/WellProofs.v
theories/NameTokens.v
theories/PropWell.v
theories/ParserWanted.v
theories/PropWanted.v
theories/Messages.v
theories/GoodNodes.v
theories/MessageProofs.v
theories/PropMessages.v
theories/PropPlaces.v
theories/ParserViable.v
theories/ParserViable2.v
theories/ParserViable3.v
theories/PropViable.v
theories/Response.v
theories/PropResponse.v
theories/Complaint.v
theories/LexWhy.v
theories/PropWhy.v
theories/PropTypeText.v
theories/Rearrange.v
theories/PropOrder.v
theories/PropBuiltin.v
theories/Written.v
theories/WrittenProofs.v
theories/PropWritten.v
theories/Flaws.v
theories/PropFlaws.v
theories/Edits.v
theories/PropTypos.v
theories/PropSplit.v
theories/Memory.v
theories/MemoryProofs.v
theories/PropMemory.v
theories/Merge.v
theories/MergeProofs.v
theories/PropMerge.v
theories/ParserDepth.v
theories/DepthSpec.v
theories/DepthProofs.v
theories/PropDepth.v
theories/PropEnd.v
theories/DumpLayout.v
theories/PropLayout.v
theories/WalkDepth.v
theories/PropWalkDepth.v
