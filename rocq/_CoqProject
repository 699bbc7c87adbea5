-Q theories Verif
theories/CharClass.v
theories/CharClassSpec.v
theories/CharClassProofs.v
theories/CharClassParse.v
theories/Properties_CharClass.v
theories/Marker.v
theories/MarkerProofs.v
theories/Reduction.v
theories/TreeSpec.v
theories/ReductionProofs.v
theories/Stage2Forest.v
theories/Writer.v
theories/WriterProofs.v
theories/Properties_Reduction.v
theories/Protocol.v
theories/ProtocolInv.v
theories/ProtocolLive.v
theories/ProtocolFacts.v
theories/PipelineProofs.v
theories/Properties_Protocol.v
theories/Stream.v
theories/StreamSpec.v
theories/StreamProofs.v
theories/Properties_Text.v
theories/Layout.v
theories/Properties_Layout.v
theories/RegexSpec.v
theories/TailSpec.v
theories/NFA.v
theories/NFASem.v
theories/NFAProofs.v
theories/NFABuild.v
theories/NFAParse.v
theories/Properties_NFA.v
theories/DFA.v
theories/DFADep.v
theories/DFAProofs.v
theories/DFATerm.v
theories/DFAPattern.v
theories/DFAMin.v
theories/Properties_DFA.v
theories/X86.v
theories/X86Step.v
theories/CodeGen.v
theories/CodeGenProofs.v
theories/CodeGenSimd.v
theories/CodeGenDfa.v
theories/CodeGenMisc.v
theories/CodeGenRoutine.v
theories/CodeGenPlain.v
theories/CodeGenMem.v
theories/CodeGenMemLit.v
theories/CodeGenMemLoop.v
theories/Properties_CodeGen.v
theories/ATN.v
theories/GrammarSpec.v
theories/ATNSem.v
theories/ATNBuild.v
theories/ATNParse.v
theories/ATNOpt.v
theories/Grammar.v
theories/Properties_ATN.v
theories/Suffix.v
theories/GrammarProofs.v
theories/Properties_Grammar.v
theories/ParserGen.v
theories/ParserRun.v
theories/ParserSim.v
theories/ATNLive.v
theories/ParseSpec.v
theories/ParserTree.v
theories/ParserTop.v
theories/SymCtx.v
theories/Properties_Parser.v
theories/ParserTerm.v
theories/Properties_ParserCases.v
theories/Lookahead.v
theories/LookSpec.v
theories/LookOrder.v
theories/LookClosure.v
theories/LookItems.v
theories/LookAuto.v
theories/LookMin.v
theories/LookMain.v
theories/LookImport.v
theories/LookGrammarSpec.v
theories/LookRead.v
theories/LookSim.v
theories/LookGrammar.v
theories/LookWf.v
theories/LookFit.v
theories/LookNul.v
theories/Properties_Look.v
theories/Properties_Compile.v
theories/GrammarCheck.v
theories/CompileCheck.v
theories/Properties_CompileCases.v
theories/ClearSpec.v
theories/ParserComplete.v
theories/OpenEndSpec.v
theories/Properties_Complete.v
theories/LookFuel.v
theories/Properties_CompleteCases.v
theories/Properties_Order.v
theories/PyReduction.v
theories/PySpec.v
theories/PyProofs.v
theories/PyBank.v
theories/PyMain.v
theories/PyChannel.v
theories/PyChannelProofs.v
theories/Properties_Python.v
theories/Resources.v
theories/Properties_Resources.v
theories/InputMap.v
theories/Properties_Input.v
theories/DryParser.v
theories/DryRun.v
theories/Properties_Dry.v
theories/EmptySpec.v
theories/ATNLoop.v
theories/ParserGround.v
theories/EmptyCheck.v
theories/Properties_Ends.v
theories/LookEnds.v
theories/LookEmpty.v
theories/Properties_Decide.v
theories/PyGrammar.v
theories/Properties_Handlers.v
theories/Chaser.v
theories/ChaserTree.v
theories/ChaserSpec.v
theories/ChaserLift.v
theories/ChaserSame.v
theories/Properties_Chaser.v
theories/Verify.v
theories/Properties_Verify.v
theories/LookStuck.v
theories/LookTable.v
theories/TableSpec.v
theories/LookStuckSim.v
theories/LookUnbounded.v
theories/Properties_Tables.v
theories/LookBounded.v
theories/BoundedCheck.v
theories/UnionExact.v
theories/ReductionStrict.v
theories/SyntaxSpec.v
theories/SyntaxProofs.v
theories/SyntaxFile.v
theories/Properties_Syntax.v
theories/PathSpec.v
theories/Tool.v
theories/ToolProofs.v
theories/ToolNodes.v
theories/Properties_Tool.v
theories/DotSpec.v
theories/Draw.v
theories/DrawProofs.v
theories/DrawDfa.v
theories/Properties_Draw.v
theories/Properties_DrawCases.v
theories/ClusterSpec.v
theories/DrawAtn.v
theories/AtnShownSpec.v
theories/DrawAtnProofs.v
theories/DrawAtnNet.v
theories/Properties_DrawAtn.v
theories/Properties_DrawAtnCases.v
theories/BarSpec.v
theories/ATNGone.v
theories/ATNBars.v
theories/LoopSpec.v
theories/LoopProofs.v
theories/Properties_Loop.v
theories/StuckSpec.v
theories/RejectBanks.v
theories/StuckProofs.v
theories/Properties_Reject.v
theories/GreedySpec.v
theories/GreedyNet.v
theories/GreedyProofs.v
theories/Properties_Greedy.v
theories/Properties_GreedyRun.v
theories/Properties_GreedyPy.v
theories/BlankSpec.v
theories/Properties_Blanks.v
theories/Properties_OpenEnd.v
theories/Properties_Repository.v
theories/Properties_RepositoryRun.v
theories/Properties_RepositoryVerify.v
