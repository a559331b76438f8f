-Q theories Verif

theories/model/GoBase.v
theories/model/SetSym.v
theories/model/Packrat.v
theories/model/TreeOps.v
theories/spec/CFG.v
theories/spec/PackratSpec.v
theories/spec/TreeOrder.v
theories/spec/Outcome.v
theories/proofs/Fuel.v
theories/proofs/SetProofs.v
theories/proofs/PackratCore.v
theories/proofs/PackratFuel.v
theories/proofs/PackratProofs.v
theories/proofs/PackratShape.v
theories/proofs/PackratThms.v
theories/proofs/PackratWit.v
theories/proofs/TreeOrderProofs.v
theories/proofs/TreeOrderWit.v
theories/props/PackratProps.v
theories/model/GoStrings.v
theories/model/GrammarGo.v
theories/model/Iter.v
theories/spec/GrammarSpec.v
theories/model/GrammarClient.v
theories/proofs/StringProofs.v
theories/proofs/GrammarProofs.v
theories/proofs/GrammarText.v
theories/proofs/IterProofs.v
theories/proofs/GrammarThms.v
theories/proofs/SetThms.v
theories/props/GrammarProps.v
theories/props/SetProps.v
theories/model/LeftRec.v
theories/model/Topdown.v
theories/spec/TopdownSpec.v
theories/proofs/TopdownProofs.v
theories/proofs/LeftRecProofs.v
theories/proofs/TopdownThms.v
theories/proofs/TopdownWit.v
theories/props/TopdownProps.v
theories/model/TreeText.v
theories/spec/TreeSpec.v
theories/proofs/TreeProofs.v
theories/proofs/TreeWit.v
theories/props/TreeProps.v
theories/model/Heap.v
theories/spec/HeapSpec.v
theories/proofs/HeapProofs.v
theories/proofs/HeapProofs2.v
theories/proofs/HeapBuild.v
theories/proofs/HeapThms.v
theories/proofs/HeapWit.v
theories/props/HeapProps.v
theories/model/Regex.v
theories/model/TreeNew.v
theories/spec/TextSpec.v
theories/proofs/RegexProofs.v
theories/proofs/TreeNewProofs.v
theories/proofs/TreeNewProofs2.v
theories/proofs/TreeNewWit.v
theories/props/TextProps.v
theories/model/SimpleLexer.v
theories/spec/LexSpec.v
theories/proofs/LexProofs.v
theories/proofs/LexProofs2.v
theories/proofs/LexThms.v
theories/proofs/LexHist.v
theories/proofs/LexMain.v
theories/proofs/LexBroken.v
theories/proofs/LexText.v
theories/proofs/LexWit.v
theories/props/LexProps.v
theories/model/StackLexer.v
theories/model/RegexPos.v
theories/spec/StackSpec.v
theories/proofs/StackProofs.v
theories/proofs/StackProofs2.v
theories/proofs/StackLoop.v
theories/proofs/StackCuts.v
theories/proofs/StackCuts2.v
theories/proofs/StackLex.v
theories/proofs/StackNew.v
theories/proofs/StackBuilt.v
theories/proofs/RegexPosProofs.v
theories/proofs/StackMain.v
theories/proofs/StackOrder.v
theories/proofs/StackWit.v
theories/props/StackProps.v
theories/model/Run.v
theories/spec/RunSpec.v
theories/proofs/RunProofs.v
theories/proofs/RunWit.v
theories/props/RunProps.v
theories/model/Analyze.v
theories/spec/AnalyzeSpec.v
theories/proofs/AnalyzeProofs.v
theories/proofs/AnalyzeMain.v
theories/proofs/AnalyzeThms.v
theories/proofs/AnalyzeWit.v
theories/props/AnalyzeProps.v
theories/model/RegexGram.v
theories/spec/RegexGramSpec.v
theories/spec/LexTable.v
theories/spec/ReSpec.v
theories/spec/RegexGramText.v
theories/proofs/RegexGramProofs.v
theories/proofs/RegexGramLang.v
theories/proofs/RegexGramFlat.v
theories/proofs/RegexGramNames.v
theories/proofs/RegexGramThms.v
theories/proofs/RegexGramWit.v
theories/proofs/GramRows.v
theories/proofs/LexTableProofs.v
theories/proofs/ReProofs.v
theories/proofs/RgParse.v
theories/proofs/RgUnamb.v
theories/proofs/RgText.v
theories/props/RegexGramProps.v
theories/proofs/RgPrint.v
theories/proofs/RgTextWit.v
theories/props/RegexGramTextProps.v
theories/model/MathEx.v
theories/spec/MathSpec.v
theories/proofs/MathProofs.v
theories/proofs/MathWit.v
theories/proofs/LeftPos.v
theories/proofs/LeftInv.v
theories/proofs/LeftEval.v
theories/props/MathProps.v
theories/model/ReducerText.v
theories/spec/ReducerSpec.v
theories/proofs/RgMust.v
theories/proofs/RdParse.v
theories/proofs/RdEval.v
theories/proofs/RdText.v
theories/proofs/RdWit.v
theories/props/ReducerTextProps.v
theories/model/JsonEx.v
theories/spec/JsonSpec.v
theories/proofs/JsonLex.v
theories/proofs/JsonText.v
theories/proofs/JsonParse.v
theories/proofs/JsonPrint.v
theories/proofs/JsonThms.v
theories/proofs/JsonRfc.v
theories/proofs/JsonSame.v
theories/proofs/JsonWit.v
theories/props/JsonProps.v
theories/model/LrRemove.v
theories/spec/LrSpec.v
theories/proofs/LrRemoveProofs.v
theories/proofs/LrRemoveDirect.v
theories/proofs/LrRemoveMain.v
theories/proofs/LrUnfold.v
theories/proofs/LrLang.v
theories/proofs/LrThms.v
theories/proofs/LrWit.v
theories/props/LrProps.v
theories/model/ScalcEx.v
theories/spec/ScalcSpec.v
theories/proofs/ScalcGram.v
theories/proofs/ScalcTotal.v
theories/proofs/ScalcMachine.v
theories/proofs/ScalcRpn.v
theories/proofs/ScalcWhole.v
theories/proofs/ScalcWit.v
theories/props/ScalcProps.v
theories/model/ScalcMain.v
theories/spec/ScalcMainSpec.v
theories/proofs/ScalcLines.v
theories/proofs/ScalcLoop.v
theories/proofs/ScalcMainWit.v
theories/props/ScalcMainProps.v
theories/model/Printing.v
theories/model/ExMains.v
theories/spec/PrintSpec.v
theories/proofs/PrintProofs.v
theories/proofs/PrintErrors.v
theories/proofs/ExMainProofs.v
theories/proofs/PrintWit.v
theories/props/PrintProps.v
theories/model/SymProd.v
theories/spec/SymProdSpec.v
theories/proofs/SymProdProofs.v
theories/proofs/SymProdWit.v
theories/props/SymProdProps.v
theories/model/Threads.v
theories/spec/ThreadSpec.v
theories/proofs/ThreadProofs.v
theories/proofs/ThreadWit.v
theories/proofs/SharedLexProofs.v
theories/proofs/SharedLexWit.v
theories/props/ThreadProps.v
theories/spec/CostSpec.v
theories/proofs/PackratRounds.v
theories/proofs/LookupProofs.v
theories/proofs/TdLookup.v
theories/proofs/LrLookup.v
theories/proofs/CostWit.v
theories/props/CostProps.v
theories/spec/TreeShape.v
theories/proofs/LeanProofs.v
theories/proofs/LeanWit.v
theories/props/ShapeProps.v
theories/model/HeapTopdown.v
theories/spec/TdHeapSpec.v
theories/proofs/TdHeap.v
theories/proofs/TdHeapWit.v
theories/props/TdHeapProps.v
theories/spec/Reach.v
theories/proofs/TdDepends.v
theories/spec/Rename.v
theories/proofs/PackratRename.v
theories/props/DependProps.v
theories/proofs/TdRename.v
theories/props/RenameProps.v
theories/spec/Shadow.v
theories/proofs/TdShadow.v
theories/props/ShadowProps.v
theories/spec/SameRules.v
theories/proofs/LrDepends.v
theories/proofs/SameTree.v
theories/props/LrDependProps.v
theories/props/SameTreeProps.v
theories/spec/Grows.v
theories/proofs/GrowsProofs.v
theories/props/GrowsProps.v
theories/spec/LexOrderSpec.v
theories/proofs/LexOrder.v
theories/props/LexOrderProps.v
theories/spec/Dead.v
theories/proofs/DeadProofs.v
theories/props/DeadProps.v
