-Q theories Verif
theories/Params.v
theories/Spec.v
theories/Mem.v
theories/Common.v
theories/NodeAbs.v
theories/FixModel.v
theories/FixProofs.v
theories/VarModel.v
theories/VarProofs.v
theories/VarSmo.v
theories/SLIface.v
theories/BaseIface.v
theories/FixSL.v
theories/VarSL.v
theories/Levels.v
theories/TreeHeap.v
theories/TreeState.v
theories/LevelOps.v
theories/SLModel.v
theories/SLSearch.v
theories/SLSplit.v
theories/SLMerge.v
theories/SLProofs.v
theories/WalkModel.v
theories/WalkProofs.v
theories/IterModel.v
theories/IterProofs.v
theories/SLScanModel.v
theories/SLScan.v
theories/SLApi.v
theories/Inst.v
theories/MLIface.v
theories/FixML.v
theories/VarML.v
theories/MLModel.v
theories/MLSearch.v
theories/MLSteps.v
theories/MLPess.v
theories/MLOpt.v
theories/MLProofs.v
theories/MLScanModel.v
theories/MLApi.v
theories/ShareModel.v
theories/ShareProofs.v
theories/ShareApi.v
theories/PropSLFix.v
theories/PropSLVar.v
theories/PropMLFix.v
theories/PropMLVar.v
theories/PropAll.v
theories/NodeView.v
theories/PropNode.v
theories/PropStats.v
theories/PropLimits.v
theories/PropMeta.v
theories/PropIter.v
theories/ConcSpec.v
theories/ConcModel.v
theories/ConcLin.v
theories/ConcInv.v
theories/ConcHeap.v
theories/ConcSmo.v
theories/ConcThreads.v
theories/ConcSteps.v
theories/ConcMain.v
theories/ConcHist.v
theories/ConcWait.v
theories/ConcSeps.v
theories/PropConc.v
theories/PropConcBad.v
theories/ScanSpec.v
theories/CScanModel.v
theories/CScanLin.v
theories/CScanProofs.v
theories/CScanMain.v
theories/CScanPlain.v
theories/ScanHist.v
theories/CScanRun.v
theories/PropCScan.v
theories/ReclModel.v
theories/ReclProofs.v
theories/ReclMain.v
theories/ReclFrame.v
theories/ReclLeak.v
theories/ReclRun.v
theories/PropRecl.v
theories/BulkModel.v
theories/BulkProofs.v
theories/BulkFix.v
theories/BulkVar.v
theories/BulkApi.v
theories/BulkFit.v
theories/PropBulk.v
theories/MConcModel.v
theories/MConcInv.v
theories/MConcSteps.v
theories/MConcMain.v
theories/PropMConc.v
theories/MScanModel.v
theories/MScanProofs.v
theories/MScanMain.v
theories/MScanHold.v
theories/PropMScan.v
theories/OConcModel.v
theories/PropOConcBad.v
theories/OLaws.v
theories/OConcInv.v
theories/OConcSteps.v
theories/OConcMain.v
theories/OConcCalm.v
theories/PropOConc.v
theories/MLeak.v
theories/PropMLeak.v
theories/OScanModel.v
theories/OScanProofs.v
theories/OScanMain.v
theories/PropOScan.v
theories/SeqModel.v
theories/SeqProofs.v
theories/PropSeq.v
theories/MTermProofs.v
theories/MTermMain.v
theories/PropMTerm.v
theories/AskModel.v
theories/PropAsk.v
theories/AloneModel.v
theories/AloneProofs.v
theories/SeqHist.v
theories/AloneExact.v
theories/AloneEnds.v
theories/AloneOpens.v
theories/PropAlone.v
theories/PropExact.v
theories/PropEnds.v
