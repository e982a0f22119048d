-Q theories Verif
theories/Base.v
theories/BaseVec.v
theories/SpecRot.v
theories/ProofVec.v
theories/ModelAttitude.v
theories/ProofAttitude.v
theories/ProofAttitude2.v
theories/PropAttitude.v
theories/SpecEarth.v
theories/SpecFloat.v
theories/ModelGravity.v
theories/ModelNavUtils.v
theories/ModelFrames.v
theories/ModelGuardFloat.v
theories/ProofPi.v
theories/ProofTrig.v
theories/ProofGravity.v
theories/ProofFrames.v
theories/ProofFrames2.v
theories/ProofFrames3.v
theories/ProofBowring.v
theories/ProofNavUtils.v
theories/ProofGuardFloat.v
theories/PropGravity.v
theories/PropNavUtils.v
theories/PropFrames.v
theories/SpecCalendar.v
theories/ModelDate.v
theories/ProofDate.v
theories/ProofMjd.v
theories/PropDate.v
theories/ModelEop.v
theories/SpecEop.v
theories/ProofEop.v
theories/PropEop.v
theories/SpecJ2k.v
theories/ModelJ2k.v
theories/ProofJ2k.v
theories/PropJ2k.v
theories/ModelCompensator.v
theories/SpecCompensator.v
theories/ProofCompensator.v
theories/PropCompensator.v
theories/ModelStrapdown.v
theories/SpecStrapdown.v
theories/ProofStrapdown.v
theories/PropStrapdown.v
theories/ModelPva.v
theories/SpecPva.v
theories/ProofPva.v
theories/PropPva.v
theories/SpecPva2.v
theories/ProofPva3.v
theories/ProofPva4.v
theories/PropPva2.v
theories/BaseMx.v
theories/ModelEigen.v
theories/ModelKalman.v
theories/SpecKalman.v
theories/SpecFilter.v
theories/ProofMx.v
theories/ProofKalman.v
theories/ProofKalman2.v
theories/ProofKalman3.v
theories/ProofKalman4.v
theories/PropKalman.v
theories/ModelBls.v
theories/SpecBls.v
theories/ProofBls.v
theories/ProofBls2.v
theories/ProofBls3.v
theories/PropBls.v
theories/ModelCoarse.v
theories/SpecCoarse.v
theories/ProofCoarse.v
theories/PropCoarse.v
theories/ModelFine.v
theories/SpecFine.v
theories/ProofFine.v
theories/PropFine.v
theories/ProofStrapdown2.v
theories/PropStrapdown2.v
theories/ProofGravity2.v
theories/PropGravity2.v
theories/ProofJ2k2.v
theories/PropJ2k2.v
theories/ModelStrapdownFloat.v
theories/SpecFloatOps.v
theories/ProofStrapdownFloat.v
theories/ProofStrapdownFloat2.v
theories/ProofShort.v
theories/PropStrapdownFloat.v
theories/ModelFramesFloat.v
theories/ProofFramesFloat.v
theories/PropFramesFloat.v
theories/ModelGravityFloat.v
theories/ProofGravityFloat.v
theories/PropGravityFloat.v
theories/ModelKalmanFloat.v
theories/SpecKalmanFloat.v
theories/ProofKalmanFloat.v
theories/ProofKalmanFloat2.v
theories/PropKalmanFloat.v
theories/ProofRnd.v
theories/ModelAttitudeFloat.v
theories/SpecAttitudeFloat.v
theories/ProofAttitudeFloat.v
theories/ProofAttitudeFloat2.v
theories/ProofAttitudeFloat3.v
theories/ProofAttitudeFloat4.v
theories/ProofAttitudeFloat5.v
theories/ProofAttitudeFloat6.v
theories/PropAttitudeFloat.v
theories/ModelNavFloat.v
theories/ProofNavFloat.v
theories/ProofNavFloat2.v
theories/PropNavFloat.v
theories/ProofNewton.v
theories/PropNewton.v
theories/SpecUkf.v
theories/ProofUkf.v
theories/PropUkf.v
theories/ModelFilterFloat.v
theories/SpecFilterFloat.v
theories/ProofFilterFloat1.v
theories/ProofFilterFloat.v
theories/PropFilterFloat.v
theories/ModelCompFloat.v
theories/ProofCompFloat.v
theories/PropCompFloat.v
theories/SpecConverge.v
theories/ProofLip.v
theories/ProofConverge.v
theories/PropConverge.v
theories/SpecOrder.v
theories/ProofOrder.v
theories/PropOrder.v
theories/ProofSurj.v
theories/PropSurj.v
theories/ProofKalman5.v
theories/PropKalman2.v
theories/CheckNum.v
theories/TestBase.v
theories/TestAttitude.v
theories/TestGravity.v
theories/TestFrames.v
theories/TestJ2k.v
theories/TestStrapdown.v
theories/TestPva.v
theories/TestFilter.v
theories/SpecTurn.v
theories/ProofTurn.v
theories/PropTurn.v
theories/SpecSteady.v
theories/ProofSteady.v
theories/ProofSteady2.v
theories/PropSteady.v
theories/SpecRunFloat.v
theories/ProofRunFloat.v
theories/ProofRunFloat2.v
theories/PropRunFloat.v
theories/ProofUnique.v
theories/PropUnique.v
theories/ModelHourFloat.v
theories/ProofHourFloat.v
theories/PropHourFloat.v
theories/ModelUpdateFloat.v
theories/SpecUpdateFloat.v
theories/ProofUpdateFloat.v
theories/PropUpdateFloat.v
theories/ModelLlaFloat.v
theories/SpecLlaFloat.v
theories/ProofLlaFloat.v
theories/ProofLlaFloat2.v
theories/ProofLlaPole.v
theories/PropLlaFloat.v
theories/ModelEulerFloat.v
theories/SpecEulerFloat.v
theories/ProofEulerFloat.v
theories/PropEulerFloat.v
theories/ModelCoarseFloat.v
theories/ProofCoarseFloat.v
theories/PropCoarseFloat.v
theories/SpecDisturb.v
theories/ProofDisturb.v
theories/ProofDisturb2.v
theories/PropDisturb.v
theories/SpecDisturbFloat.v
theories/ProofDisturbFloat.v
theories/PropDisturbFloat.v
theories/SpecLopsided.v
theories/ProofLopsided.v
theories/PropLopsided.v
theories/ModelLongFloat.v
theories/SpecLongFloat.v
theories/ProofLongFloat.v
theories/ProofLongFloat2.v
theories/PropLongFloat.v
theories/ProofLongState.v
theories/PropLongState.v
theories/ModelJ2kFloat.v
theories/SpecJ2kFloat.v
theories/ProofJ2kFloat.v
theories/ProofJ2kFloat2.v
theories/ProofJ2kFloat3.v
theories/ProofJ2kFloat4.v
theories/ProofJ2kFloat5.v
theories/PropJ2kFloat.v
theories/SpecNutation.v
theories/ProofNutation.v
theories/PropNutation.v
theories/ModelBlsFloat.v
theories/SpecBlsFloat.v
theories/ProofBlsFloat.v
theories/ProofBlsFloat2.v
theories/ProofBlsFloat3.v
theories/ProofBlsFloat4.v
theories/PropBlsFloat.v
theories/ModelPvaFloat.v
theories/SpecPvaFloat.v
theories/ProofPvaFloat.v
theories/ProofPvaFloat2.v
theories/ProofPvaFloat3.v
theories/ProofPvaFloat4.v
theories/PropPvaFloat.v
theories/ModelLdltFloat.v
theories/ModelLdltMx.v
theories/SpecLdltFloat.v
theories/ProofLdlt.v
theories/ProofLdlt2.v
theories/ProofLdlt3.v
theories/ProofLdlt4.v
theories/ProofLdlt5.v
theories/ProofLdlt6.v
theories/ProofLdlt7.v
theories/ProofLdlt8.v
theories/ProofLdlt9.v
theories/PropLdltFloat.v
theories/ModelUkfFloat.v
theories/SpecUkfFloat.v
theories/ProofUkfFloat.v
theories/ProofUkfFloat2.v
theories/ProofUkfSym.v
theories/ProofUkfFloat3.v
theories/PropUkfFloat.v
theories/ModelLuFloat.v
theories/ModelLuMx.v
theories/SpecLuFloat.v
theories/ProofLu.v
theories/ProofLu2.v
theories/ProofLu3.v
theories/ProofLuMx.v
theories/ProofLuCase.v
theories/PropLuFloat.v
theories/SpecUkfUpdate.v
theories/ProofUkfCross.v
theories/ProofUkfLu.v
theories/ProofUkfNeg.v
theories/ProofUkfNeg2.v
theories/ProofUkfLuCase.v
theories/PropUkfLu.v
theories/ModelFineFloat.v
theories/SpecFineFloat.v
theories/ProofDirect.v
theories/ProofFineFloat.v
theories/ProofFineFloat2.v
theories/ProofFineCase.v
theories/PropFineFloat.v
theories/ProofDirect2.v
theories/ProofVelFloat.v
theories/ProofVelCase.v
theories/PropVelFloat.v
theories/SpecGaussNewton.v
theories/ProofGaussNewton.v
theories/PropGaussNewton.v
theories/ModelNlsFloat.v
theories/SpecNlsFloat.v
theories/ProofNlsFloat.v
theories/ProofNlsFloat2.v
theories/ProofNlsCase.v
theories/PropNlsFloat.v
theories/SpecWnlsFloat.v
theories/ProofWnlsFloat.v
theories/ProofWnlsCase.v
theories/PropWnlsFloat.v
theories/SpecStationary.v
theories/ProofStationary.v
theories/PropStationary.v
theories/ModelInPlace.v
theories/ProofInPlace.v
theories/ModelNavObject.v
theories/ProofNavObject.v
theories/PropInPlace.v
theories/ModelBlsShared.v
theories/ProofBlsShared.v
theories/PropBlsShared.v
theories/SpecOverflow.v
theories/ProofOverflow.v
theories/ProofOverflow2.v
theories/ProofOverflow3.v
theories/ProofOverflow4.v
theories/ProofOverflow5.v
theories/ProofOverflow6.v
theories/ProofOverflow7.v
theories/ProofOverflow8.v
theories/ProofOverflow9.v
theories/ProofOverflow10.v
theories/ProofOverflow11.v
theories/ProofOverflow12.v
theories/ProofOverflow13.v
theories/ProofOverflow14.v
theories/ProofOverflow15.v
theories/ProofOverflow16.v
theories/ProofOverflow17.v
theories/ProofOverflow18.v
theories/ProofOverflow19.v
theories/ProofOverflow20.v
theories/PropOverflow.v
theories/PropOverflowFilter.v
theories/PropOverflowNav.v
theories/PropOverflowRun.v
theories/PropOverflowFrames.v
theories/PropOverflowAttitude.v
theories/PropOverflowUpdate.v
theories/PropOverflowFine.v
theories/PropOverflowPva.v
theories/PropOverflowBls.v
theories/ModelNlsIeee.v
theories/SpecNlsIeee.v
theories/ProofNlsIeee.v
theories/ProofNlsIeee2.v
theories/ProofNlsIeee3.v
theories/PropNlsIeee.v
