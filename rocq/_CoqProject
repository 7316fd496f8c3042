-Q theories Verif
theories/Base.v
theories/Ast.v
theories/IntervalsModel.v
theories/InspectModel.v
theories/IntervalsSpec.v
theories/InspectSpec.v
theories/IntervalsProofs.v
theories/RandomProofs.v
theories/RandomUniform.v
theories/InspectProofs.v
theories/BranchProofs.v
theories/Minimal.v
theories/Guarded.v
theories/P_Intervals.v
theories/P_Inspect.v
theories/GoLang.v
theories/GenModel.v
theories/GenPrint.v
theories/GenDecode.v
theories/GenCheck.v
theories/GenSim.v
theories/GenSimBody.v
theories/GenSimProg.v
theories/WireSpec.v
theories/WireProofs.v
theories/WireComplete.v
theories/GenTerm.v
theories/GenSafe.v
theories/PackageSpec.v
theories/PackageProofs.v
theories/GenTotal.v
theories/GenMono.v
theories/WireFacts.v
theories/GenRecv.v
theories/ReachSpec.v
theories/ReachProofs.v
theories/FaultProofs.v
theories/PackageFacts.v
theories/GenExt.v
theories/PackageMore.v
theories/GenExamples.v
theories/ParseFacts.v
theories/GenSwitch.v
theories/GenWitness.v
theories/TvModel.v
theories/TvConstraints.v
theories/TvHeap.v
theories/TvFacts.v
theories/PkgModel.v
theories/PkgSpec.v
theories/PkgProofs.v
theories/PkgFacts.v
theories/TvWitness.v
theories/TvClass.v
theories/TvGood.v
theories/TvLeaf.v
theories/TvFrame.v
theories/TvFields.v
theories/TvField.v
theories/TvUnion.v
theories/TvSound.v
theories/TvBytes.v
theories/ResDet.v
theories/TvDet.v
theories/TvAlone.v
theories/TvFinish.v
theories/TvSucceed.v
theories/TvTidy.v
theories/TvAccept.v
theories/TvLive.v
theories/TvCover.v
theories/TvCovered.v
theories/P_Parse.v
theories/P_Gen.v
theories/P_Tv.v
theories/P_Cover.v
theories/P_Package.v
theories/P_Det.v
theories/PegModel.v
theories/PegGrammar.v
theories/PegDescent.v
theories/PegEngine.v
theories/PegRunes.v
theories/PegConsume.v
theories/PegRefine.v
theories/PegRules.v
theories/SyntaxSpec.v
theories/PegUtf8.v
theories/PegTop.v
theories/PegLexical.v
theories/PegSound.v
theories/PegComplete.v
theories/PegExact.v
theories/SyntaxForm.v
theories/PegSpace.v
theories/PegShape.v
theories/PegPrint.v
theories/PegLiteral.v
theories/PegRestore.v
theories/PegCount.v
theories/GoldenExamples.v
theories/P_Syntax.v
theories/GoTypes.v
theories/CompileCheck.v
theories/CompileProofs.v
theories/CompileProg.v
theories/CompileNeeds.v
theories/ScopeSpec.v
theories/ScopeProofs.v
theories/P_Compile.v
theories/BuildModel.v
theories/BuildProofs.v
theories/BuildAgain.v
theories/BuildMore.v
theories/P_Build.v
theories/P_Again.v
theories/GoCost.v
theories/CostGrow.v
theories/CostSpec.v
theories/CostDec.v
theories/CostBody.v
theories/CostInv.v
theories/CostProg.v
theories/CostRec.v
theories/CostRecProg.v
theories/P_Cost.v
theories/PegReport.v
theories/PegReportProofs.v
theories/ReportSpec.v
theories/PegPlace.v
theories/PegReportTop.v
theories/PegKinds.v
theories/PegLocal.v
theories/PegExp.v
theories/PegNested.v
theories/NestSpec.v
theories/PegSpend.v
theories/PegUpper.v
theories/PegBalance.v
theories/PegNestCost.v
theories/PlaceSpec.v
theories/PegPlaces.v
theories/P_Report.v
theories/GoMem.v
theories/MemSim.v
theories/MemPath.v
theories/MemExec.v
theories/MemMono.v
theories/MemStep.v
theories/MemFill.v
theories/MemCall.v
theories/MemGen.v
theories/MemSpec.v
theories/MemTop.v
theories/MemBad.v
theories/MemEnds.v
theories/P_Memory.v
theories/GenPrefix.v
theories/P_Stream.v
theories/SameSpec.v
theories/SameProofs.v
theories/ExtSpec.v
theories/ExtProofs.v
theories/FwdSpec.v
theories/FwdProofs.v
theories/P_Same.v
theories/P_Ext.v
theories/P_Fwd.v
theories/PegJoin.v
theories/Moved.v
theories/P_Join.v
theories/RenameSpec.v
theories/RenameProofs.v
theories/P_Rename.v
theories/RoundSpec.v
theories/RoundProofs.v
theories/P_Round.v
theories/SizeSpec.v
theories/SizeProofs.v
theories/SizeLeast.v
theories/P_Size.v
theories/WordSpec.v
theories/MemWord.v
theories/MemWordGen.v
theories/P_Word.v
theories/TypedSpec.v
theories/TypedExec.v
theories/TypedGen.v
theories/TypedProg.v
theories/P_Typed.v
theories/GoText.v
theories/TextModel.v
theories/TextLex.v
theories/TextParse.v
theories/TextSim.v
theories/TextDecl.v
theories/TextSame.v
theories/TextCheck.v
theories/TextOnce.v
theories/TextProg.v
theories/GoldenText.v
theories/P_Text.v
theories/GoTestText.v
theories/TestTextModel.v
theories/TestTextProofs.v
theories/P_TestText.v
theories/GoldenTests.v
theories/BuildTextModel.v
theories/P_BuildText.v
theories/CountSpec.v
theories/TvCount.v
theories/P_Count.v
theories/OrderSpec.v
theories/OrderProofs.v
theories/P_Order.v
theories/GoConc.v
theories/ConcAlone.v
theories/ConcTouch.v
theories/ConcSafe.v
theories/ConcStep.v
theories/ConcExec.v
theories/ConcFill.v
theories/ConcCall.v
theories/ConcPool.v
theories/ConcSpec.v
theories/ConcTop.v
theories/P_Conc.v
theories/P_Fault.v
theories/P_Feed.v
theories/TvScopes.v
theories/GroupSpec.v
theories/GroupProofs.v
theories/HarnessModel.v
theories/P_Harness.v
theories/P_Group.v
theories/IndepSpec.v
theories/Indep.v
theories/IndepLen.v
theories/P_Indep.v
theories/IntervalsText.v
theories/IntervalsTextSpec.v
theories/IntervalsTextProofs.v
theories/P_SetText.v
theories/CorpusModel.v
theories/CorpusSpec.v
theories/CorpusProofs.v
theories/P_Corpus.v
theories/ContextSpec.v
theories/ContextProofs.v
theories/P_Context.v
theories/UnrollProofs.v
theories/P_Unroll.v
theories/LocalSpec.v
theories/LocalProofs.v
theories/P_Local.v
theories/SwapProofs.v
theories/P_Bytes.v
theories/PickProofs.v
theories/P_Pick.v
theories/FrameProofs.v
theories/P_Frame.v
theories/P_Filter.v
theories/CarrySpec.v
theories/CarryProofs.v
theories/P_Carry.v
theories/AltSpec.v
theories/P_Alt.v
theories/ModProofs.v
theories/P_Mod.v
theories/AltAllProofs.v
theories/P_AltAll.v
theories/PlainSpec.v
theories/P_Plain.v
theories/P_CountKnown.v
theories/IgnoreSpec.v
theories/P_Ignored.v
theories/WithinSpec.v
theories/P_Within.v
theories/P_Inner.v
theories/P_CtxCount.v
theories/P_Unused.v
theories/P_Selected.v
