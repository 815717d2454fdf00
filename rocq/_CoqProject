-Q theories Verif
theories/Arith.v
theories/ModelLib.v
theories/ModelElo.v
theories/ModelFifa.v
theories/ModelIngo.v
theories/ModelUscf.v
theories/ModelEgf.v
theories/ModelDwz.v
theories/ModelGlicko.v
theories/ModelSticko.v
theories/ModelBoost.v
theories/ModelGlicko2.v
theories/ModelWengLin.v
theories/ModelConv.v
theories/ModelTS.v
theories/ModelTSGraph.v
theories/ModelTSMatrix.v
theories/XR.v
theories/Tac.v
theories/Spec.v
theories/SpecIn.v
theories/SpecTS.v
theories/SpecInTS.v
theories/SpecNormal.v
theories/SpecTSN.v
theories/ProofElo.v
theories/PropsElo.v
theories/ProofFifa.v
theories/PropsFifa.v
theories/ProofIngo.v
theories/PropsIngo.v
theories/ProofUscf.v
theories/PropsUscf.v
theories/ProofEgf.v
theories/PropsEgf.v
theories/ProofEgf2.v
theories/ProofDwz.v
theories/PropsDwz.v
theories/ProofGlicko.v
theories/PropsGlicko.v
theories/ProofSticko.v
theories/PropsSticko.v
theories/ProofBoost.v
theories/PropsBoost.v
theories/MathIllinois.v
theories/MathIllinois2.v
theories/MathGlicko2.v
theories/MathG2Trap.v
theories/ProofGlicko2.v
theories/ProofG2Trap.v
theories/PropsGlicko2.v
theories/ProofWengLin.v
theories/PropsWengLin.v
theories/MathTS.v
theories/MathIval.v
theories/MathPoly.v
theories/MathTSW.v
theories/MathTSInv.v
theories/MathTSDraw.v
theories/MathGauss.v
theories/MathTSNorm.v
theories/MathTSNorm2.v
theories/MathTSStart.v
theories/MathTSAcc.v
theories/ProofTS.v
theories/PropsTS.v
theories/ProofTSAcc.v
theories/ProofTSZero.v
theories/PropsTSAcc.v
theories/ProofTSGraph.v
theories/ProofTSSafe.v
theories/ProofTSTwo.v
theories/ProofTSTwoTop.v
theories/SpecEP.v
theories/ProofTSMany.v
theories/ProofTSManyTop.v
theories/PropsTSGraph.v
theories/PropsTSMany.v
theories/ProofTSUpset.v
theories/PropsTSUpset.v
theories/SpecReach.v
theories/ProofReach.v
theories/SpecLeague.v
theories/ProofLeague.v
theories/PropsReach.v
theories/ProofTSDraw.v
theories/ProofTSDraw2.v
theories/PropsTSDraw.v
theories/MathDet.v
theories/ProofTSQual.v
theories/PropsTSQual.v
theories/ProofCross.v
theories/PropsCross.v
theories/B64.v
theories/SpecB64.v
theories/MathB64.v
theories/ProofB64.v
theories/ProofB64b.v
theories/ProofB64c.v
theories/PropsB64.v
theories/MathB64b.v
theories/ProofB64d.v
theories/ProofB64e.v
theories/ProofB64f.v
theories/ProofB64g.v
theories/PropsB64b.v
theories/ProofB64h.v
theories/PropsB64c.v
theories/ProofOrder.v
theories/ProofBoost2.v
theories/ProofOrder2.v
theories/PropsOrder.v
theories/MathTSMono.v
theories/ProofTSOrder.v
theories/ProofTSNorm.v
theories/PropsTSOrder.v
theories/MathAcc.v
theories/SpecAcc.v
theories/ProofAcc.v
theories/ProofAcc2.v
theories/MathAcc2.v
theories/ProofAcc3.v
theories/PropsAcc.v
theories/MathAccR.v
theories/ProofAccTS.v
theories/ProofAccTS2.v
theories/MathTSLip.v
theories/MathTSLip2.v
theories/ProofAccTS3.v
theories/ProofAccTS4.v
theories/PropsTSNormal.v
theories/PropsAccTS.v
theories/SpecAcc2.v
theories/ProofAccDwz.v
theories/ProofAccDwz2.v
theories/PropsAccDwz.v
theories/ProofAccUscf.v
theories/PropsAccUscf.v
theories/ProofAccSticko.v
theories/PropsAccSticko.v
theories/ProofDrift.v
theories/PropsDrift.v
theories/ProofShift.v
theories/PropsShift.v
theories/ProofLong.v
theories/PropsLong.v
theories/ProofAccPer.v
theories/PropsAccPer.v
theories/ProofInfo.v
theories/PropsInfo.v
theories/SpecAcc3.v
theories/MathIllF.v
theories/MathG2F.v
theories/ProofAccG2.v
theories/PropsAccG2.v
theories/SpecAcc4.v
theories/MathIllT.v
theories/MathG2T.v
theories/ProofG2T.v
theories/PropsG2T.v
theories/MathG2H.v
theories/ProofG2H.v
theories/PropsG2H.v
theories/SpecAcc5.v
theories/MathRel.v
theories/MathAccWL.v
theories/ProofAccWL.v
theories/ProofAccWL2.v
theories/PropsAccWL.v
theories/SpecAcc6.v
theories/MathAccTST.v
theories/ProofAccTST.v
theories/ProofAccTST2.v
theories/ProofAccTST3.v
theories/PropsAccTST.v
theories/SpecAcc7.v
theories/ProofAccGB.v
theories/ProofAccGB2.v
theories/PropsAccGB.v
theories/ProofMono.v
theories/ProofMonoWL.v
theories/PropsMono.v
theories/ProofRank.v
theories/PropsRank.v
theories/ProofDrift2.v
theories/PropsYouth.v
theories/ProofFloor.v
theories/PropsFloor.v
theories/SpecRegret.v
theories/ProofRegret.v
theories/PropsRegret.v
theories/ProofTSRes.v
theories/PropsTSRes.v
theories/ProofG2Res.v
theories/ProofG2Str.v
theories/PropsG2Res.v
theories/ProofG2Vol.v
theories/PropsG2Vol.v
theories/ProofMaxMove.v
theories/PropsMaxMove.v
theories/ProofTriangle.v
theories/PropsTriangle.v
theories/ProofTSTwist.v
theories/PropsTSTwist.v
theories/ProofRematch.v
theories/ProofRematch2.v
theories/PropsRematch.v
theories/ProofOrderG2.v
theories/PropsOrderG2.v
theories/ProofOrderDwz.v
theories/ProofConvert.v
theories/PropsConvert.v
theories/SpecDraw.v
theories/ProofDraw.v
theories/ProofDrawTS.v
theories/PropsDraw.v
theories/ProofUncertain.v
theories/ProofOrderSt.v
theories/ProofWho.v
theories/ProofWhoB.v
theories/PropsUncertain.v
theories/PropsWho.v
theories/ProofFirst.v
theories/PropsFirst.v
theories/ProofFair.v
theories/PropsFair.v
theories/ProofFirstDwz.v
theories/PropsFirstDwz.v
theories/SpecSettle.v
theories/ProofEvenly.v
theories/ProofEvenly2.v
theories/ProofEvenly3.v
theories/PropsEvenly.v
theories/ProofFarm.v
theories/ProofFarm2.v
theories/ProofFarm3.v
theories/PropsFarm.v
theories/ProofMore.v
theories/PropsMore.v
theories/ProofPull.v
theories/PropsPull.v
theories/ProofIdle.v
theories/PropsIdle.v
theories/ProofSweep.v
theories/ProofSweep2.v
theories/ProofSweep3.v
theories/PropsSweep.v
theories/ProofShare.v
theories/PropsShare.v
theories/ProofPairs.v
theories/PropsPairs.v
theories/ProofForget.v
theories/ProofForget2.v
theories/PropsForget.v
theories/ProofCalib.v
theories/ProofCalib2.v
theories/PropsCalib.v
theories/PropsOrderSt.v
theories/ProofRecent.v
theories/PropsRecent.v
theories/ProofSplit.v
theories/PropsSplit.v
