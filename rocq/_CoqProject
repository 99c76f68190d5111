-Q theories Verif
theories/Base.v
theories/Num.v
theories/Expr.v
theories/Node.v
theories/Stat.v
theories/Machine.v
theories/Pure.v
theories/Wf.v
theories/LBase.v
theories/LKind.v
theories/LSimDef.v
theories/LMem.v
theories/LSimF.v
theories/LSimB.v
theories/LBind.v
theories/Session.v
theories/LUser.v
theories/LFind.v
theories/PropsMem.v
theories/Tape.v
theories/LTape.v
theories/LState.v
theories/LNrm.v
theories/LTop.v
theories/LRest.v
theories/LSess.v
theories/PropsSess.v
theories/XR.v
theories/Spec.v
theories/RSess.v
theories/LReal.v
theories/LScal.v
theories/LKA.v
theories/LKB.v
theories/LKS.v
theories/LMx.v
theories/LMat.v
theories/LKM.v
theories/LVal.v
theories/Nudge.v
theories/LNudge.v
theories/LGrad.v
theories/LDiff.v
theories/LRestR.v
theories/Grad.v
theories/LIndep.v
theories/LGrd.v
theories/LNGrad.v
theories/LPh.v
theories/PropsGrad.v
theories/Train.v
theories/LTrain.v
theories/LNN.v
theories/LBS.v
theories/PropsTrain.v
theories/Rules.v
theories/LNode.v
theories/PropsNode.v
theories/LInf.v
theories/PropsStat.v
theories/Forward.v
theories/FSpec.v
theories/LFwd.v
theories/PropsFwd.v
theories/Own.v
theories/OwnSpec.v
theories/LOwn.v
theories/OwnBind.v
theories/LOwnBind.v
theories/Sub.v
theories/LSub.v
theories/PropsOwn.v
theories/Flow.v
theories/LFlow.v
theories/LSeq.v
theories/LBranch.v
theories/LCmp.v
theories/PropsFlow.v
theories/Fold.v
theories/FoldSpec.v
theories/LFold.v
theories/LFoldTop.v
theories/PropsFold.v
theories/LDisc.v
theories/LDiscR.v
theories/PropsDisc.v
theories/InPlace.v
theories/LInPlace.v
theories/LInPlaceR.v
theories/PropsInPlace.v
theories/Assign.v
theories/LAssign.v
theories/LAssignR.v
theories/PropsAssign.v
theories/Usage.v
theories/LShape.v
theories/PropsShape.v
theories/LHid.v
theories/Calls.v
theories/LCalls.v
theories/PropsCalls.v
theories/Elim.v
theories/LElim.v
theories/PropsElim.v
theories/Progs.v
theories/LProgs.v
theories/PropsProgs.v
theories/Split.v
theories/LSplit.v
theories/PropsSplit.v
theories/Jac.v
theories/LJac.v
theories/PropsJac.v
theories/Ieee.v
theories/LParam.v
theories/LCmap.v
theories/IeeeSpec.v
theories/LDyad.v
theories/LRed.v
theories/LIeee.v
theories/PropsIeee.v
theories/Ival.v
theories/IvalSpec.v
theories/LIval.v
theories/PropsIval.v
theories/FwdNum.v
theories/LFwdNum.v
theories/PropsFwdNum.v
theories/Hess.v
theories/HessSpec.v
theories/LCurve.v
theories/LSome.v
theories/LHess.v
theories/PropsHess.v
theories/Readme.v
theories/LReadme.v
theories/PropsReadme.v
theories/Views.v
theories/LViews.v
theories/LViewR.v
theories/PropsViews.v
theories/Frechet.v
theories/LFrechet.v
theories/LChain.v
theories/PropsTotal.v
theories/Again.v
theories/LAgain.v
theories/Bench.v
theories/LBench.v
theories/PropsAgain.v
theories/LFindIf.v
theories/PropsFind.v
theories/ProgsB.v
theories/LProgsB.v
theories/LProgsC.v
theories/PropsProgsB.v
theories/Empty.v
theories/LEmpty.v
theories/PropsEmpty.v
theories/Types.v
theories/LTypes.v
theories/PropsTypes.v
theories/LSing.v
theories/PropsSing.v
theories/BenchB.v
theories/LBenchB.v
theories/LBenchD.v
theories/PropsBenchB.v
theories/BenchC.v
theories/LBenchC.v
theories/PropsBenchC.v
theories/HessT.v
theories/LHessT.v
theories/PropsHessT.v
theories/Adj.v
theories/LAdj.v
theories/LAdjP.v
theories/LAdjK.v
theories/LAdjR.v
theories/PropsAdj.v
theories/PropsJacOnce.v
