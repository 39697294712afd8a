-Q theories Verif
theories/Prelude.v
theories/Scalar.v
theories/Spec.v
theories/Sums.v
theories/Order.v
theories/Coord.v
theories/ModelBasis.v
theories/ModelSpline.v
theories/ModelPoint.v
theories/SpecSpline.v
theories/Examples.v
theories/ProofIndex.v
theories/ProofBasis.v
theories/ProofEval.v
theories/ProofElevate.v
theories/ProofUnique.v
theories/ClaimsA.v
theories/ProofArith.v
theories/ClaimsB.v
theories/ProofCube.v
theories/ClaimsC.v
theories/ProofMul.v
theories/ProofSplit.v
theories/ClaimsD.v
theories/ProofCompose.v
theories/ClaimsE.v
theories/ModelRational.v
theories/SpecRational.v
theories/ProofRational.v
theories/ProofRational2.v
theories/ProofRational3.v
theories/ClaimsG.v
theories/ClaimsH.v
theories/ModelDerivShape.v
theories/SpecReal.v
theories/ProofDeriv.v
theories/ProofDerivSpline.v
theories/ProofReal.v
theories/ClaimsF.v
theories/ProofLeibniz.v
theories/ProofRational4.v
theories/ProofLeibnizReal.v
theories/ClaimsI.v
theories/ModelBase64.v
theories/SpecBase64.v
theories/ProofBase64.v
theories/ClaimsJ.v
theories/ModelAlgorithms.v
theories/SpecAlgorithms.v
theories/ClaimsK.v
theories/ModelAD.v
theories/SpecAD.v
theories/ProofAD.v
theories/ClaimsL.v
theories/ClaimsL2.v
theories/ModelLogger.v
theories/SpecLogger.v
theories/ClaimsM.v
theories/SpecHistory.v
theories/ClaimsN.v
theories/ModelScalar.v
theories/ProofScalar.v
theories/ClaimsO.v
theories/ModelNorm.v
theories/ClaimsP.v
theories/ModelADSpline.v
theories/SpecADSpline.v
theories/ProofParam.v
theories/ClaimsQ.v
theories/ClaimsR.v
theories/ModelAccess.v
theories/ClaimsS.v
theories/SpecNested.v
theories/ClaimsT.v
theories/ModelRound.v
theories/SpecRound.v
theories/ProofCasteljau.v
theories/ProofRound.v
theories/ProofRoundEval.v
theories/ClaimsU.v
theories/SpecSeam.v
theories/ProofRaw.v
theories/ProofSeam.v
theories/ProofRoundOps.v
theories/ClaimsRoundOps.v
theories/SpecRoundMul.v
theories/ModelRoundMul.v
theories/ProofRawMul.v
theories/ProofRoundMul.v
theories/ProofRoundCompose.v
theories/ClaimsRoundMul.v
theories/PropertiesA.v
theories/PropertiesB.v
theories/PropertiesC.v
theories/PropertiesD.v
theories/PropertiesE.v
theories/PropertiesF.v
theories/PropertiesG.v
theories/PropertiesH.v
theories/PropertiesI.v
theories/PropertiesJ.v
theories/PropertiesK.v
theories/PropertiesL.v
theories/PropertiesM.v
theories/PropertiesN.v
theories/PropertiesO.v
theories/PropertiesP.v
theories/PropertiesQ.v
theories/PropertiesR.v
theories/PropertiesS.v
theories/PropertiesT.v
theories/PropertiesU.v
theories/PropertiesRoundOps.v
theories/PropertiesRoundMul.v
theories/ProofLaws.v
theories/ClaimsV.v
theories/SpecLaws.v
theories/ProofLawsReal.v
theories/ClaimsW.v
theories/PropertiesV.v
theories/PropertiesW.v
theories/SpecHull.v
theories/ProofHull.v
theories/ClaimsX.v
theories/ClaimsY.v
theories/ClaimsZ.v
theories/PropertiesX.v
theories/PropertiesY.v
theories/PropertiesZ.v
theories/ProofEnvelope.v
theories/ClaimsTests.v
theories/PropertiesTests.v
theories/ModelExample.v
theories/SpecExample.v
theories/ProofExample.v
theories/ClaimsExample.v
theories/PropertiesExample.v
theories/ModelText.v
theories/SpecText.v
theories/ClaimsText.v
theories/PropertiesText.v
theories/ModelIEEE.v
theories/SpecIEEE.v
theories/ProofIEEE.v
theories/ProofIEEEEval.v
theories/ClaimsIEEE.v
theories/PropertiesIEEE.v
theories/ModelIEEERat.v
theories/SpecIEEERat.v
theories/ClaimsIEEERat.v
theories/PropertiesIEEERat.v
theories/ModelRoundRat.v
theories/SpecRoundRat.v
theories/SpecSeamRat.v
theories/ProofRoundRat.v
theories/ProofRoundRat2.v
theories/ProofRoundRat3.v
theories/ClaimsRoundRat.v
theories/ClaimsSeamRat.v
theories/PropertiesRoundRat.v
theories/ModelADOps.v
theories/SpecADOps.v
theories/ProofParamOps.v
theories/ProofParamRat.v
theories/ProofADOps.v
theories/ClaimsADOps.v
theories/PropertiesADOps.v
theories/ModelFma.v
theories/ProofFma.v
theories/ClaimsFma.v
theories/PropertiesFma.v
theories/ModelIEEEFwd.v
theories/SpecIEEEFwd.v
theories/ProofIEEEFwd.v
theories/ProofIEEERun.v
theories/ClaimsIEEEFwd.v
theories/PropertiesIEEEFwd.v
theories/ModelSize.v
theories/ProofSize.v
theories/ClaimsSize.v
theories/PropertiesSize.v
theories/ModelUnit.v
theories/SpecUnit.v
theories/ProofUnit.v
theories/ProofUnit2.v
theories/ProofUnit3.v
theories/ClaimsUnit.v
theories/PropertiesUnit.v
theories/SpecNet.v
theories/ProofNet.v
theories/ProofNet2.v
theories/ProofNet3.v
theories/ProofNet4.v
theories/ClaimsNet.v
theories/PropertiesNet.v
theories/ModelRelease.v
theories/SpecRelease.v
theories/ProofRelease.v
theories/ProofRelease2.v
theories/ClaimsRelease.v
theories/PropertiesRelease.v
theories/SpecRoundDeriv.v
theories/ProofRoundDeriv.v
theories/ClaimsRoundDeriv.v
theories/PropertiesRoundDeriv.v
theories/ModelSize2.v
theories/ProofSize2.v
theories/ProofSize3.v
theories/ClaimsSize2.v
theories/PropertiesSize2.v
theories/ModelSize3.v
theories/ProofSize4.v
theories/ClaimsSize3.v
theories/PropertiesSize3.v
theories/SpecShape.v
theories/ProofShape.v
theories/ProofShape2.v
theories/ClaimsShape.v
theories/PropertiesShape.v
theories/ModelFail.v
theories/ProofFail.v
theories/ClaimsFail.v
theories/PropertiesFail.v
theories/ModelFmaOps.v
theories/ProofFmaOps.v
theories/ClaimsFmaOps.v
theories/PropertiesFmaOps.v
theories/ModelSize4.v
theories/ProofSize5.v
theories/ClaimsSize4.v
theories/PropertiesSize4.v
theories/ModelRoundRat2.v
theories/ProofRoundRat4.v
theories/ProofRoundRat5.v
theories/ClaimsRoundRat2.v
theories/PropertiesRoundRat2.v
theories/ModelRoundRat3.v
theories/ProofRoundRat6.v
theories/ClaimsRoundRat3.v
theories/PropertiesRoundRat3.v
theories/ModelRoundSplit.v
theories/SpecRoundSplit.v
theories/ProofRoundSplit.v
theories/ClaimsRoundSplit.v
theories/PropertiesRoundSplit.v
theories/ModelIEEESplit.v
theories/SpecIEEESplit.v
theories/ProofIEEESplit.v
theories/ClaimsIEEESplit.v
theories/PropertiesIEEESplit.v
theories/ProofIEEESplit2.v
theories/ClaimsIEEESplit2.v
theories/PropertiesIEEESplit2.v
theories/ModelIEEESplitRat.v
theories/ProofIEEESplitRat.v
theories/ClaimsIEEESplitRat.v
theories/PropertiesIEEESplitRat.v
