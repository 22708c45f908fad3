-Q theories Verif
theories/CPrelude.v
theories/ListLemmas.v
theories/SortModel.v
theories/SortProofs.v
theories/DnestModel.v
theories/DnestProofs.v
theories/DnestRound.v
theories/DnestRuns.v
theories/SamplerSpec.v
theories/SamplerFacts.v
theories/SamplerFacts2.v
theories/LimitsFacts.v
theories/SamplerExamples.v
theories/PropSampler.v
theories/LogXModel.v
theories/LogXProofs.v
theories/PropSort.v
theories/RestartModel.v
theories/RestartProofs.v
theories/RestartSpec.v
theories/RestartFacts.v
theories/RestartExamples.v
theories/PropRestart.v
theories/TagModel.v
theories/ParsetModel.v
theories/TagSpec.v
theories/TagProofs.v
theories/TagFacts.v
theories/ParsetFacts.v
theories/PropTags.v
theories/PostModel.v
theories/PostProofs.v
theories/PostProofs2.v
theories/PropPost.v
theories/RStruct.v
theories/SemisepModel.v
theories/SemisepProofs.v
theories/SemisepProofs2.v
theories/MatBridge.v
theories/SemisepProofs3.v
theories/PropSemisep.v
theories/MatBridge2.v
theories/PartModel.v
theories/PartProofs.v
theories/PartProofs2.v
theories/PartProofs3.v
theories/PropPart.v
theories/PolyRoots.v
theories/GlsAlgebra.v
theories/LikeModel.v
theories/LikeProofs.v
theories/PropLike.v
theories/ScanModel.v
theories/ScanProofs.v
theories/ScanProofs2.v
theories/ScanProofs3.v
theories/PropScan.v
theories/SmallModel.v
theories/HmsProofs.v
theories/PropSmall.v
theories/KernelModel.v
theories/KernelCalc.v
theories/KernelSpec.v
theories/KernelLift.v
theories/KernelTophat.v
theories/KernelExp.v
theories/KernelExp2.v
theories/KernelExp3.v
theories/KernelFubini.v
theories/KernelGauss.v
theories/KernelGauss2.v
theories/KernelSym.v
theories/KernelBand.v
theories/KernelBand2.v
theories/PropKernel.v
theories/CovModel.v
theories/CovProofs.v
theories/CovProofs2.v
theories/PropCov.v
theories/ParamModel.v
theories/ParamSpec.v
theories/ParamProofs.v
theories/ParamProofs2.v
theories/ParamProofs3.v
theories/ParamProofs4.v
theories/ParamProofs5.v
theories/PropParam.v
theories/RecModel.v
theories/RecProofs.v
theories/PropRec.v
theories/PropNorm.v
theories/WorkModel.v
theories/PropWork.v
theories/PredModel.v
theories/PredProofs.v
theories/PropPred.v
theories/MixModel.v
theories/MixSpec.v
theories/MixGauss.v
theories/MixForms.v
theories/MixCode.v
theories/MixPairs.v
theories/MixLift.v
theories/PropMix.v
theories/PropMixBand.v
theories/DecompModel.v
theories/DecompKernel.v
theories/DecompSums.v
theories/DecompMat.v
theories/DecompProofs.v
theories/PropDecompCov.v
theories/PropDecomp.v
theories/PsdCore.v
theories/PsdKernel.v
theories/PsdSym.v
theories/PropPsd.v
theories/EndModel.v
theories/EndProofs.v
theories/PropEnd.v
theories/VmapModel.v
theories/VmapProofs.v
theories/PropVmap.v
theories/PropVnorm.v
theories/SetsModel.v
theories/PropSets.v
theories/BalanceModel.v
theories/BalanceSpec.v
theories/BalanceProofs.v
theories/PropBalance.v
theories/DampModel.v
theories/PropDamp.v
theories/SpanModel.v
theories/SpanProofs.v
theories/PropSpan.v
theories/PropDigits.v
theories/OutModel.v
theories/PropOut.v
theories/VoutModel.v
theories/PropVout.v
theories/CmdSpec.v
theories/GetoptModel.v
theories/GetoptProofs.v
theories/PropCmd.v
theories/LuSpec.v
theories/LuDet.v
theories/LuProofs.v
theories/ConModel.v
theories/ConProofs.v
theories/PropCon.v
theories/DecOutModel.v
theories/DecOutProofs.v
theories/PropDecOut.v
theories/MemModel.v
theories/MemSpec.v
theories/MemProofs.v
theories/PropMem.v
theories/NmapModel.v
theories/NmapProofs.v
theories/PropNmap.v
theories/TextModel.v
theories/TextProofs.v
theories/TextReal.v
theories/SampTextModel.v
theories/PropSampText.v
theories/TextSci.v
theories/LevTextModel.v
theories/LevTextProofs.v
theories/PropLevText.v
theories/TabModel.v
theories/PropTab.v
theories/OptModel.v
theories/PropOpt.v
theories/RangeModel.v
theories/PropRange.v
theories/FlowModel.v
theories/PropFlow.v
theories/HeapModel.v
theories/HeapProofs.v
theories/PropHeap.v
theories/StepModel.v
theories/StepProofs.v
theories/StepFloat.v
theories/PropStep.v
theories/WrapModel.v
theories/WrapFloat.v
theories/PropWrap.v
theories/PropChoice.v
theories/BkModel.v
theories/BkMat.v
theories/BkProofs.v
theories/PropBk.v
theories/UnitMat.v
theories/UnitProofs.v
theories/PropUnit.v
theories/FeedModel.v
theories/PropFeed.v
theories/OldModel.v
theories/OldProofs.v
theories/PropOld.v
theories/PropBare.v
theories/MoveProofs.v
theories/PropMove.v
theories/ExpModel.v
theories/PropExp.v
theories/OldRecModel.v
theories/OldRecProofs.v
theories/PropOldRec.v
theories/SeqModel.v
theories/PropSeq.v
theories/VseqModel.v
theories/PropVseq.v
theories/DefModel.v
theories/PropDef.v
theories/BarModel.v
theories/PropBar.v
theories/PropHeld.v
theories/PyModel.v
theories/PropPy.v
theories/PropPyText.v
theories/PyDataModel.v
theories/PropPyData.v
theories/PyPostModel.v
theories/PyPostProofs.v
theories/PropPyPost.v
theories/PyNamesModel.v
theories/PropPyNames.v
theories/MomentProofs.v
theories/PyLagModel.v
theories/PropPyLag.v
