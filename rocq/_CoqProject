-Q theories Verif
theories/Terms.v
theories/Unify.v
theories/UnifyProofs.v
theories/MatchProofs.v
theories/UnifyProps.v
theories/KBO.v
theories/KBOProofs.v
theories/KBOOrder.v
theories/KBOProps.v
theories/LPO.v
theories/LPOProofs.v
theories/LPO4Proofs.v
theories/LPOProps.v
theories/OCB.v
theories/OCBProofs.v
theories/OCBProps.v
theories/Splay.v
theories/SplayProofs.v
theories/SplayProps.v
theories/TOCompare.v
theories/TOCompareProps.v
theories/Semantics.v
theories/Clauses.v
theories/ClausesProofs.v
theories/LitOrder.v
theories/Infer.v
theories/InferProofs.v
theories/InferTotal.v
theories/ExEnv.v
theories/InferProps.v
theories/LitOrderProofs.v
theories/LitOrderProps.v
theories/Subsume.v
theories/SubsumeSpec.v
theories/SubsumeProofs.v
theories/SubsumeClause.v
theories/SubsumeUnits.v
theories/SubsumeCond.v
theories/SubsumeProps.v
theories/Taut.v
theories/TautProofs.v
theories/TautProps.v
theories/Rewrite.v
theories/RewriteProofs.v
theories/RewriteHist.v
theories/RewriteProps.v
theories/PDTree.v
theories/PDTreeProofs.v
theories/PDTreeSearch.v
theories/PDTreeRetrieve.v
theories/PDTreeProps.v
theories/Mem.v
theories/Queue.v
theories/QueueProofs.v
theories/QueueProps.v
theories/Heap.v
theories/HeapProofs.v
theories/HeapProps.v
theories/IntMap.v
theories/IntMapProofs.v
theories/IntMapProps.v
theories/Flags.v
theories/FlagsProps.v
theories/Rand.v
theories/RandProps.v
theories/DStr.v
theories/DStrProofs.v
theories/DStrProps.v
theories/Net.v
theories/NetProofs.v
theories/NetProps.v
theories/FPIndex.v
theories/FPIndexProofs.v
theories/FPIndexProps.v
theories/ClauseIdx.v
theories/ClauseIdxProofs.v
theories/ClauseIdxProps.v
theories/FVIndex.v
theories/FVIndexProofs.v
theories/FVTreeProofs.v
theories/FVIndexProps.v
theories/TermBank.v
theories/TermBankProofs.v
theories/TermBankOpsProofs.v
theories/TermBankGCProofs.v
theories/TermBankProps.v
theories/Split.v
theories/SplitProofs.v
theories/SplitSemProofs.v
theories/SplitProps.v
theories/CNF.v
theories/CNFProofs.v
theories/CNFTermProofs.v
theories/CNFSkolemProofs.v
theories/CNFMainProofs.v
theories/CNFProps.v
theories/Select.v
theories/SelectProofs.v
theories/SelectFairProofs.v
theories/SelectProps.v
theories/Saturate.v
theories/SaturateSyms.v
theories/SaturateRw.v
theories/SaturateStep.v
theories/SaturateProofs.v
theories/SaturateProps.v
theories/Sig.v
theories/SigProofs.v
theories/SigProps.v
theories/Num.v
theories/NumProofs.v
theories/NumProps.v
theories/SatCheck.v
theories/SatCheckProofs.v
theories/SatCheckProps.v
theories/Unfold.v
theories/UnfoldProofs.v
theories/UnfoldProps.v
theories/Inj.v
theories/InjProofs.v
theories/InjProps.v
theories/Bce.v
theories/BceFlip.v
theories/BceLoop.v
theories/BceEq.v
theories/BceNeq.v
theories/BceProofs.v
theories/BceTotal.v
theories/BceProps.v
theories/PredElim.v
theories/PredRes.v
theories/PredInv.v
theories/PredElimProofs.v
theories/PredElimProps.v
theories/CNFDefs.v
theories/CNFDefsProofs.v
theories/CNFDefsProps.v
theories/Sine.v
theories/SineProofs.v
theories/SineProps.v
theories/GoalDefs.v
theories/GoalDefsProofs.v
theories/GoalDefsProps.v
theories/PipeSyms.v
theories/Pipeline.v
theories/PipeProofs.v
theories/PipeSteps.v
theories/PipeEnd.v
theories/PipelineProps.v
theories/Answers.v
theories/AnswersProofs.v
theories/AnswersProps.v
theories/AC.v
theories/ACProofs.v
theories/ACModel.v
theories/ACScan.v
theories/ACProps.v
theories/Derivation.v
theories/DerivationProofs.v
theories/DerivLoops.v
theories/DerivMain.v
theories/DerivHist.v
theories/DerivationProps.v
theories/OrdGen.v
theories/OrdGenProofs.v
theories/OrdGenProps.v
theories/Lossless.v
theories/LosslessStep.v
theories/LosslessProofs.v
theories/LosslessEx.v
theories/LosslessProps.v
theories/Tptp.v
theories/TptpSpec.v
theories/TptpLex.v
theories/TptpFuel.v
theories/TptpProofs.v
theories/TptpMain.v
theories/TptpStable.v
theories/TptpMean.v
theories/TptpProps.v
theories/Sched.v
theories/SchedSpec.v
theories/SchedProofs.v
theories/SchedRun.v
theories/SchedTimes.v
theories/SchedProps.v
theories/LitSel.v
theories/LitSelSpec.v
theories/LitSelProofs.v
theories/LitSelGood.v
theories/LitSelBest.v
theories/LitSelRest.v
theories/LitSelProps.v
theories/LitSelCondSpec.v
theories/LitSelCond.v
theories/CmdLine.v
theories/CmdLineSpec.v
theories/CmdLineProofs.v
theories/CmdLineRun.v
theories/CmdLineMain.v
theories/CmdLineText.v
theories/CmdLineProps.v
theories/Pcl.v
theories/PclSpec.v
theories/PclProofs.v
theories/PclMain.v
theories/PclFast.v
theories/PclBad.v
theories/PclProps.v
theories/Ground.v
theories/GroundSpec.v
theories/GroundProofs.v
theories/GroundHerbrand.v
theories/GroundConstr.v
theories/GroundOut.v
theories/GroundProps.v
theories/Memory.v
theories/MemorySpec.v
theories/MemoryProofs.v
theories/MemoryProps.v
theories/NewMem.v
theories/NewMemSpec.v
theories/NewMemProofs.v
theories/NewMemProps.v
