-Q theories Verif
theories/Base.v
theories/OptionUsize.v
theories/Regex.v
theories/Nfa.v
theories/NfaProofs.v
theories/Overlap.v
theories/OverlapProofs.v
theories/OverlapLaminar.v
theories/Dfa.v
theories/DfaProofs.v
theories/Lex.v
theories/LexSpec.v
theories/LexLoop.v
theories/NfaLive.v
theories/LexNfa.v
theories/LexProofs.v
theories/Utf8Spec.v
theories/Utf8Proofs.v
theories/PropsLex.v
theories/PropsRegex.v
theories/Grammar.v
theories/First.v
theories/Item.v
theories/Table.v
theories/Parse.v
theories/GrammarSpec.v
theories/GrammarProofs.v
theories/GrammarCheck.v
theories/FirstProofs.v
theories/LexGrammar.v
theories/LexGrammarProofs.v
theories/PropsGrammar.v
theories/ItemSpec.v
theories/ItemProofs.v
theories/ItemPlain.v
theories/PropsItem.v
theories/TableSpec.v
theories/MergeProofs.v
theories/TableProofs.v
theories/TableFacts.v
theories/Witness.v
theories/PropsTable.v
theories/ParseSpec.v
theories/Auto.v
theories/TreeFacts.v
theories/ParseProofs.v
theories/ParseTerm.v
theories/ParseCycle.v
theories/ParseComplete.v
theories/ParseExact.v
theories/ParseCheck.v
theories/PropsParse.v
theories/Lalr.v
theories/EndSpec.v
theories/EndProofs.v
theories/PropsEnd.v
theories/Support.v
theories/PropsSupport.v
theories/Text.v
theories/TsText.v
theories/TsTextFacts.v
theories/LexGen.v
theories/TsScan.v
theories/TsTables.v
theories/TsTablesFacts.v
theories/LexGenProofs.v
theories/LexGenLexer.v
theories/Lisp.v
theories/PropsLexGen.v
theories/TsUtil.v
theories/PropsTsUtil.v
theories/TsLex.v
theories/TsLexProofs.v
theories/PropsTsLex.v
theories/ParseGen.v
theories/TsModule.v
theories/TsModuleFacts.v
theories/ParseGenSpec.v
theories/ParseGenProofs.v
theories/ParseGenActs.v
theories/ParseGenFile.v
theories/ParseGenEmit.v
theories/ParseGenCheck.v
theories/PropsParseGen.v
theories/TsParse.v
theories/TsParseSpec.v
theories/TsParseProofs.v
theories/PropsTsParse.v
theories/GrammarFile.v
theories/GrammarFileSpec.v
theories/GrammarFileProofs.v
theories/PropsGrammarFile.v
theories/Release.v
theories/Report.v
theories/ReportSpec.v
theories/ReportProofs.v
theories/ReportExact.v
theories/PropsReport.v
theories/PropsWhole.v
theories/PropsRelease.v
theories/IsoSpec.v
theories/Iso.v
theories/IsoParse.v
theories/IsoGrammar.v
theories/PropsIso.v
theories/ViableSpec.v
theories/ViableProofs.v
theories/ViableTables.v
theories/ViableReport.v
theories/PropsViable.v
theories/DfaReach.v
theories/PropsReach.v
theories/UselessSpec.v
theories/Useless.v
theories/UselessParse.v
theories/UselessGrammar.v
theories/PropsUseless.v
theories/Cost.v
theories/PropsCost.v
theories/WhiteSpace.v
theories/PropsWhite.v
theories/TableSize.v
theories/PropsSize.v
theories/PropsGenerate.v
theories/ReleaseAll.v
theories/PropsBuilds.v
theories/TsErrorSpec.v
theories/PropsTsError.v
theories/PrintSpec.v
theories/PropsPrint.v
theories/SpellSpec.v
theories/Spell.v
theories/PropsSpell.v
theories/LongSpec.v
theories/PropsLong.v
theories/CommentSpec.v
theories/PropsComment.v
theories/LlSpec.v
theories/Ll.v
theories/PropsLl.v
theories/CommonSpec.v
theories/PropsCommon.v
theories/RegularSpec.v
theories/PropsRegular.v
theories/ExtendSpec.v
theories/PropsExtend.v
theories/MergeSpec.v
theories/PropsMerge.v
theories/LispSpec.v
theories/LispProofs.v
theories/PropsLisp.v
theories/OperatorSpec.v
theories/OperatorProofs.v
theories/PropsOperator.v
theories/RepoTests.v
theories/OwnSpec.v
theories/OwnProofs.v
theories/PropsOwn.v
theories/AppendProofs.v
theories/PropsAppend.v
theories/OutcomeProofs.v
theories/PropsOutcome.v
theories/PropsParseEnd.v
theories/LayerSpec.v
theories/LayerProofs.v
theories/PropsLayer.v
theories/MixSpec.v
theories/MixProofs.v
theories/PropsMix.v
theories/MixEvalSpec.v
theories/MixEval.v
theories/PropsMixType.v
theories/MixUseSpec.v
theories/MixUse.v
theories/PropsMixUse.v
theories/MixPrintSpec.v
theories/MixPrint.v
theories/PropsMixPrint.v
theories/SeqSpec.v
theories/SeqProofs.v
theories/PropsSeq.v
theories/SeqEvalSpec.v
theories/SeqEval.v
theories/PropsSeqType.v
theories/SeqUseSpec.v
theories/SeqUse.v
theories/PropsSeqUse.v
theories/SeqPrintSpec.v
theories/SeqPrint.v
theories/PropsSeqPrint.v
theories/CompleteProofs.v
theories/PropsComplete.v
theories/PropsCheck.v
theories/PropsTsCheck.v
theories/Trace.v
theories/TraceSpec.v
theories/PropsTrace.v
theories/SymApi.v
theories/PropsSymApi.v
theories/PropsTraceFile.v
theories/PropsRegularStack.v
theories/HeightSpec.v
theories/PropsHeight.v
theories/PropsHeightExact.v
theories/PropsHeightCheck.v
theories/PropsHeightFile.v
theories/PropsHeightText.v
