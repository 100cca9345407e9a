-Q theories Verif
theories/Base.v
theories/CMat.v
theories/CMatFacts.v
theories/Det.v
theories/DetFacts.v
theories/Norms.v
theories/CRoot.v
theories/Expm.v
theories/ExpmFacts.v
theories/ExpmBounds.v
theories/ModelUnitary.v
theories/ModelEntry.v
theories/ModelPrimitive.v
theories/ModelSequence.v
theories/ModelCompiler.v
theories/ModelVerification.v
theories/ModelGates.v
theories/ModelHamiltonian.v
theories/ModelFloat.v
theories/ModelText.v
theories/Spec.v
theories/SpecModel.v
theories/SpecCompiler.v
theories/SpecGates.v
theories/SpecOneQubit.v
theories/SpecHamiltonian.v
theories/SpecText.v
theories/SpecChannel.v
theories/PBits.v
theories/PUnitary.v
theories/PEmbed.v
theories/PDrift.v
theories/PSu2.v
theories/PEntry.v
theories/PUnitaryProps.v
theories/PRandom.v
theories/PSeqHeap.v
theories/PSeqMeth.v
theories/PSeqNear.v
theories/PSeqWorld.v
theories/PSeqUndo.v
theories/PCompView.v
theories/PCompRun.v
theories/PCompEntry.v
theories/PCompLoop.v
theories/PCompTrace.v
theories/PCompTotal.v
theories/PCompProps.v
theories/PCompMore.v
theories/PSeqInv.v
theories/PSeqHist.v
theories/PSeqProps.v
theories/PSeqCases.v
theories/PSeqEx.v
theories/PSeqParity.v
theories/PLong.v
theories/PLongRun.v
theories/PCompCases.v
theories/PReach.v
theories/PCompEx.v
theories/PReachEx.v
theories/SpecChain.v
theories/PChain.v
theories/PChainStep.v
theories/PChainRun.v
theories/PChainBal.v
theories/PChainHit.v
theories/PChainLay.v
theories/PVerify.v
theories/PVerifyProps.v
theories/PGates.v
theories/PGms.v
theories/PFamilies.v
theories/POneQubit.v
theories/PGatesEx.v
theories/PHam.v
theories/PHamTerm.v
theories/PHamSeq.v
theories/PHamRun.v
theories/PCompCost.v
theories/ModelAlias.v
theories/SpecAlias.v
theories/PAlias.v
theories/PHamTrot.v
theories/PHamQd.v
theories/PChannel.v
theories/PHamChan.v
theories/PHamSub.v
theories/PHamStoq.v
theories/PHamRav.v
theories/PHamIso.v
theories/PHamEx.v
theories/PFloat.v
theories/PParam.v
theories/PText.v
theories/PTextSeq.v
theories/PTextEx.v
theories/PropsUnitary.v
theories/PropsEntry.v
theories/PropsSequence.v
theories/PropsCompiler.v
theories/PropsVerification.v
theories/PropsGates.v
theories/PropsHamiltonian.v
theories/PropsFloat.v
theories/PropsText.v
theories/PropsOneQubit.v
theories/PropsAlias.v
theories/ModelRound.v
theories/SpecRound.v
theories/PRound.v
theories/PRoundProps.v
theories/ModelRound64.v
theories/PRound64.v
theories/PRoundEx.v
theories/ModelNoise.v
theories/SpecNoise.v
theories/PNoise.v
theories/PNoise2.v
theories/PNoise3.v
theories/PNoise4.v
theories/PNoise5.v
theories/PNoiseEx.v
theories/PropsNoise.v
theories/PropsRound.v
theories/ModelPaper.v
theories/SpecPaper.v
theories/PPaper.v
theories/PPaper2.v
theories/PPaper3.v
theories/PPaper4.v
theories/PPaper5.v
theories/PPaper6.v
theories/PPaperNoise.v
theories/PPaperEx.v
theories/PropsPaper.v
theories/ModelRoundComp.v
theories/SpecRoundComp.v
theories/PRoundComp.v
theories/PRoundComp2.v
theories/PropsRoundComp.v
theories/SpecAgree.v
theories/PAgree.v
theories/PAgree2.v
theories/PAgreeEx.v
theories/PropsAgree.v
theories/ModelWide.v
theories/SpecWide.v
theories/PWide.v
theories/PWide2.v
theories/PropsWide.v
theories/ModelExample.v
theories/SpecExample.v
theories/PExample.v
theories/PNotebook.v
theories/PropsExample.v
theories/ModelDecimal.v
theories/SpecDecimal.v
theories/PDecimal.v
theories/PDecimalOp.v
theories/PDecimalReport.v
theories/PDecimalEx.v
theories/PropsDecimal.v
theories/PRecur.v
theories/PAlmost.v
theories/PAlmostComp.v
theories/PAlmostRun.v
theories/PAlmostEx.v
theories/PropsAlmost.v
theories/SpecChainLay.v
theories/PLayBal.v
theories/PropsLayBal.v
theories/SpecFloor.v
theories/PFloor.v
theories/PFloorNear.v
theories/PFloorComp.v
theories/PFloorChange.v
theories/PFloorRun.v
theories/PFloorMain.v
theories/PFloorLib.v
theories/PFloorEx.v
theories/PropsFloor.v
theories/PFloorStoq.v
theories/PFloorTrot.v
theories/PFloorTrotEx.v
theories/PFloorInv.v
theories/PFloorRav.v
theories/PRavTime.v
theories/PRavHit.v
theories/PropsStoqChance.v
theories/PropsRavChance.v
theories/PropsRavTime.v
theories/ModelOld.v
theories/POld.v
theories/PropsOld.v
theories/PQdTail.v
theories/PQdEx.v
theories/PropsQdrift.v
theories/SpecTrotter.v
theories/PTrotComm.v
theories/PTrotEx.v
theories/PropsTrotter.v
theories/SpecPrint.v
theories/PPrint.v
theories/PPrintEx.v
theories/PropsPrint.v
theories/PRandTrot.v
theories/PRandTrotMean.v
theories/SpecRandTrot.v
theories/PRandTrotRun.v
theories/PRandTrotEx.v
theories/PropsRandTrot.v
theories/PGateCount.v
theories/PGateCountEx.v
theories/PropsGateCount.v
theories/SpecRepro.v
theories/PRepro.v
theories/PReproEx.v
theories/PropsRepro.v
theories/PReproHam.v
theories/PReproHamEx.v
theories/PropsReproHam.v
theories/PPhase.v
theories/PPhaseEx.v
theories/PropsPhase.v
theories/ModelResult.v
theories/SpecTime.v
theories/PTime.v
theories/PTimeEx.v
theories/PropsTime.v
theories/SpecNearHerm.v
theories/PNearHerm.v
theories/PNearHermEx.v
theories/PropsNearHerm.v
theories/ModelChoice64.v
theories/SpecChoice.v
theories/PChoice64.v
theories/PChoice64Ex.v
theories/PropsChoice.v
theories/SpecTurn.v
theories/PTurn.v
theories/PTurn2.v
theories/PTurnEx.v
theories/PTurnSeq.v
theories/PropsTurn.v
theories/SpecRelabel.v
theories/PRelabel.v
theories/PRelabel2.v
theories/PRelabelEx.v
theories/PRelabelNone.v
theories/PRelabelSeq.v
theories/PRelabelFree.v
theories/PRelabelFreeEx.v
theories/PropsRelabel.v
