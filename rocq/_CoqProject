-Q theories Verif
theories/Base.v
theories/Lexer.v
theories/LexerTermProofs.v
theories/SpecLexer.v
theories/LexerProofs.v
theories/LexerPosProofs.v
theories/LexerCrashProofs.v
theories/LexerCleanProofs.v
theories/LexerFactsProofs.v
theories/PropLexer.v
theories/SpecLexError.v
theories/LexErrorProofs.v
theories/PropLexError.v
theories/Ast.v
theories/Parser.v
theories/ParserTermProofs.v
theories/SpecParser.v
theories/ParserSoundProofs.v
theories/ParserCompleteProofs.v
theories/SpecPrinter.v
theories/ParserFactsProofs.v
theories/PropParser.v
theories/Program.v
theories/Sema.v
theories/SpecSema.v
theories/SpecKeys.v
theories/SpecProgram.v
theories/SemaProofs.v
theories/SemaTreeProofs.v
theories/SemaShapeProofs.v
theories/SemaMainProofs.v
theories/SemaFactsProofs.v
theories/SemaTextProofs.v
theories/KeysProofs.v
theories/PropSema.v
theories/Value.v
theories/Text.v
theories/Json.v
theories/StdLib.v
theories/Exec.v
theories/Runtime.v
theories/Demo.v
theories/SpecText.v
theories/TextProofs.v
theories/SpecLib.v
theories/LibProofs.v
theories/PropLib.v
theories/SpecOrder.v
theories/OrderProofs.v
theories/DataProofs.v
theories/SpecRuntime.v
theories/FuelProofs.v
theories/Library.v
theories/SpecNames.v
theories/NamesProofs.v
theories/NamesRunProofs.v
theories/PropNames.v
theories/SpecShow.v
theories/ShowProofs.v
theories/SpecJson.v
theories/Utf8Proofs.v
theories/OperatorProofs.v
theories/DictProofs.v
theories/PropValue.v
theories/SpecExec.v
theories/ExecProofs.v
theories/QuoteProofs.v
theories/PropExec.v
theories/SpecCmd.v
theories/CmdProofs.v
theories/PropCmd.v
theories/SpecRun.v
theories/SpecShare.v
theories/JsonProofs.v
theories/JsonFactsProofs.v
theories/PrintProofs.v
theories/PropShow.v
theories/PropJson.v
theories/SpecSig.v
theories/SigProofs.v
theories/ConvProofs.v
theories/ContProofs.v
theories/PropSig.v
theories/SpecCode.v
theories/CodeProofs.v
theories/PropCode.v
theories/SoundLibProofs.v
theories/SoundRunProofs.v
theories/RunProofs.v
theories/PropRun.v
theories/PropEval.v
theories/SpecLoop.v
theories/LoopProofs.v
theories/PropLoop.v
theories/ShareLibProofs.v
theories/ShareRunProofs.v
theories/ShareProofs.v
theories/PropShare.v
theories/TailProofs.v
theories/SpecTail.v
theories/TailRunProofs.v
theories/PropTail.v
theories/SpecLaws.v
theories/LawProofs.v
theories/PropLaws.v
theories/Report.v
theories/SpecReport.v
theories/ParserMarkProofs.v
theories/ReportProofs.v
theories/Main.v
theories/SpecMain.v
theories/MainProofs.v
theories/PropMain.v
theories/PropReport.v
theories/SpecRest.v
theories/TrimProofs.v
theories/RestProofs.v
theories/PropRest.v
theories/SpecOps.v
theories/OpsProofs.v
theories/PropOps.v
theories/AstFmt.v
theories/SpecAst.v
theories/AstFmtProofs.v
theories/PropAst.v
theories/SpecCrash.v
theories/CrashProofs.v
theories/PropCrash.v
theories/ProgFmt.v
theories/SpecProg.v
theories/ProgFmtProofs.v
theories/PropProg.v
theories/SpecPlace.v
theories/PlaceProofs.v
theories/PropPlace.v
theories/SpecFault.v
theories/FaultProofs.v
theories/FaultTreeProofs.v
theories/FaultTextProofs.v
theories/PropFault.v
theories/SpecAlpha.v
theories/AlphaProofs.v
theories/PropAlpha.v
theories/SpecPure.v
theories/PureSemaProofs.v
theories/PureRunProofs.v
theories/PropPure.v
theories/SpecFirst.v
theories/FirstErrorProofs.v
theories/ViableProofs.v
theories/PropFirst.v
theories/SpecRecover.v
theories/RecoverProofs.v
theories/PropRecover.v
theories/HashTable.v
theories/SpecHash.v
theories/HashProofs.v
theories/PropHash.v
theories/Interner.v
theories/SpecInterner.v
theories/InternerProofs.v
theories/PropInterner.v
theories/SpecPanic.v
theories/PanicPlaceProofs.v
theories/PanicLibProofs.v
theories/PanicRunProofs.v
theories/PanicTextProofs.v
theories/PanicTellProofs.v
theories/PropPanic.v
theories/SpecWait.v
theories/WaitProofs.v
theories/PropWait.v
theories/SpecThread.v
theories/WorldProofs.v
theories/Threads.v
theories/ThreadProofs.v
theories/BlockWorldProofs.v
theories/PropThread.v
theories/SpecGarbage.v
theories/GarbageLibProofs.v
theories/GarbageRunProofs.v
theories/PropGarbage.v
theories/SpecFrame.v
theories/FrameProofs.v
theories/PropFrame.v
theories/SpecEnds.v
theories/EndsProofs.v
theories/PropEnds.v
