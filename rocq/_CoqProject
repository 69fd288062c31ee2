-Q theories Verif
theories/MBase.v
theories/MGraph.v
theories/MPaths.v
theories/Spec.v
theories/LBase.v
theories/LGraph.v
theories/LDfs.v
theories/LPaths.v
theories/LActive.v
theories/LMotif.v
theories/PPaths.v
theories/PGraph.v
theories/MMacid.v
theories/SpecM.v
theories/LRoles.v
theories/LHeap.v
theories/LCopy.v
theories/LMech.v
theories/LReach.v
theories/PMacid.v
theories/MRel.v
theories/SpecR.v
theories/LCheck.v
theories/LRel.v
theories/PRel.v
theories/MIncent.v
theories/SpecI.v
theories/LMoral.v
theories/LTrim.v
theories/LIncent.v
theories/PIncent.v
theories/MPatterns.v
theories/SpecP.v
theories/LPatterns.v
theories/PPatterns.v
theories/MCpd.v
theories/SpecC.v
theories/LQc.v
theories/LCpd.v
theories/PCpd.v
theories/MNet.v
theories/SpecN.v
theories/LNet.v
theories/PNet.v
theories/MProb.v
theories/LSum.v
theories/LBayes.v
theories/LSep.v
theories/MQuery.v
theories/SpecQ.v
theories/LQuery.v
theories/LDo.v
theories/LInter.v
theories/LFactor.v
theories/LEdit.v
theories/LBuilt.v
theories/LTotal.v
theories/LCheckN.v
theories/PQuery.v
theories/MEffects.v
theories/LEffects.v
theories/PEffects.v
theories/PEdit.v
theories/MPolicy.v
theories/SpecPol.v
theories/LPolicy.v
theories/LValue.v
theories/LQcArith.v
theories/LSearch.v
theories/LLike.v
theories/LOptimal.v
theories/LOptDec.v
theories/LOptTotal.v
theories/LBest.v
theories/LSolve.v
theories/PPolicy.v
theories/POptDec.v
theories/PSolve.v
theories/MVoi.v
theories/SpecVoi.v
theories/LIndep.v
theories/LVoi.v
theories/LVoc.v
theories/LReq.v
theories/PVoi.v
theories/PVoc.v
theories/PIndep.v
theories/MRandCpd.v
theories/PRandCpd.v
theories/MRandDag.v
theories/SpecRand.v
theories/LRandDag.v
theories/PRandDag.v
theories/MRandMacid.v
theories/LRandMacid.v
theories/PRandMacid.v
theories/PCid.v
theories/MGame.v
theories/SpecGame.v
theories/LGame.v
theories/LGrow.v
theories/LTree.v
theories/LLevels.v
theories/LShape.v
theories/PGame.v
theories/LPayoff.v
theories/LPlay.v
theories/LNash.v
theories/PPlay.v
theories/MSub.v
theories/LKept.v
theories/LMargin.v
theories/SpecSub.v
theories/LShift.v
theories/LSub.v
theories/LStage.v
theories/PSub.v
theories/PSolver.v
theories/LRespond.v
theories/LWhole.v
theories/PWhole.v
theories/SpecExport.v
theories/LExport.v
theories/PExport.v
theories/SpecScm.v
theories/MScm.v
theories/PScm.v
theories/SpecCond.v
theories/MCond.v
theories/LCond.v
theories/PCond.v
theories/SpecSane.v
theories/LSane.v
theories/PSane.v
theories/MRandCid.v
theories/LRandCid.v
theories/PRandCid.v
theories/SpecVoiN.v
theories/LVoiN.v
theories/PVoiN.v
theories/LWire.v
theories/LTrek.v
theories/SpecGen.v
theories/PGen.v
theories/PComplete.v
theories/LGate.v
theories/LSwitch.v
theories/LControl.v
theories/PControl.v
theories/PInstr.v
theories/LGateAll.v
theories/LMix.v
theories/LPay.v
theories/LRig.v
theories/LResp.v
theories/LRespG.v
theories/PResp.v
theories/LRely.v
theories/PRely.v
theories/LDep.v
theories/PDep.v
theories/PDirect.v
theories/MRelG.v
theories/SpecRelG.v
theories/PRelG.v
theories/MSample.v
theories/SpecSample.v
theories/LSample.v
theories/PSample.v
theories/MDraw.v
theories/PDraw.v
theories/LDoor.v
theories/PDoor.v
theories/LJoint.v
theories/PJoint.v
theories/MLabel.v
theories/SpecLabel.v
theories/LLabel.v
theories/PLabel.v
theories/MRepr.v
theories/SpecRepr.v
theories/PRepr.v
theories/PRemove.v
theories/PRules.v
theories/MEffPath.v
theories/PEffPath.v
theories/PBounds.v
theories/PConsist.v
theories/PBoundsV.v
