-Q theories Verif
theories/Num.v
theories/Vec.v
theories/Spec.v
theories/SpecSparse.v
theories/RVec.v
theories/ModelUtils.v
theories/ModelUtilsArr.v
theories/UtilsMain.v
theories/UtilsAdd.v
theories/ModelPenalty.v
theories/ModelTv.v
theories/TvSafe.v
theories/TvHull.v
theories/TvKkt.v
theories/TvTaut.v
theories/SpecTv.v
theories/PenaltyFacts.v
theories/TvLines.v
theories/TvDykstra.v
theories/TvOp.v
theories/TvMain.v
theories/ConvexFacts.v
theories/SpecTrace.v
theories/PenaltyFacts2.v
theories/PenaltyFacts3.v
theories/ModelConstraint.v
theories/ModelTrace.v
theories/ModelFrankWolfe.v
theories/ModelTraceSolve.v
theories/ModelRandomized.v
theories/SpecFiniteSum.v
theories/RandomizedFacts.v
theories/RandomizedBlocks.v
theories/RandomizedSaga.v
theories/RandomizedSvrg.v
theories/RandomizedVrtos.v
theories/RandomizedFix.v
theories/RandomizedProx.v
theories/ConstraintFacts.v
theories/FrankWolfeFacts.v
theories/FrankWolfeConv.v
theories/FrankWolfeMain.v
theories/ModelSfw.v
theories/SpecSfw.v
theories/SfwFacts.v
theories/SfwStep.v
theories/SfwMain.v
theories/SfwMain2.v
theories/SfwRate.v
theories/TraceFacts.v
theories/TraceMain.v
theories/ModelSplitting.v
theories/SplittingFacts.v
theories/ModelProxGrad.v
theories/ProxGradFacts.v
theories/ProxGradConv.v
theories/ProxGradAcc.v
theories/ProxGradMain.v
theories/SplittingMain.v
theories/SplittingThree.v
theories/SplittingThree2.v
theories/SplittingConv.v
theories/SplittingPD.v
theories/SplittingPD2.v
theories/SplittingLS.v
theories/SplittingRuns.v
theories/SpecLoss.v
theories/LossFacts.v
theories/LossScalar.v
theories/ModelLoss.v
theories/LossLink.v
theories/LossHess.v
theories/LossMain.v
theories/LossMain2.v
theories/FrankWolfePair.v
theories/FrankWolfePairRun.v
theories/FrankWolfeMain2.v
theories/FrankWolfeRuns.v
theories/LossEnd.v
theories/ProxGradLin.v
theories/TraceSolve.v
theories/TraceRuns.v
theories/ModelTorch.v
theories/TorchMain.v
theories/SpecEpochs.v
theories/RandomizedPen.v
theories/RandomizedMain.v
theories/RandomizedMain2.v
theories/RandomizedMain3.v
theories/SvdExists.v
theories/EpochFacts.v
theories/SvrgDescent.v
theories/SvrgRate.v
theories/SvdExists2.v
theories/FwStops.v
theories/PgStops.v
theories/StopsRuns.v
theories/SplittingLsConv.v
theories/SplittingLsRuns.v
theories/SpecSfwMean.v
theories/ModelDatasets.v
theories/SpecDatasets.v
theories/SfwRuns.v
theories/SfwMain3.v
theories/SfwRate2.v
theories/SfwPair.v
theories/SfwPairRuns.v
theories/ModelFwNone.v
theories/ModelSfwNone.v
theories/SfwNoneRuns.v
theories/FloatBase.v
theories/FloatSum.v
theories/FloatPair.v
theories/FloatPair2.v
theories/FloatSimplex.v
theories/FloatSimplex2.v
theories/FloatBall.v
theories/FloatBallMain.v
theories/FloatSfw.v
theories/FwNoneMain.v
theories/SfwNoneMain.v
theories/SfwNoneMain2.v
theories/SfwMain4.v
theories/SfwMean.v
theories/SfwMean2.v
theories/SfwMean3.v
theories/SfwMean4.v
theories/SfwMeanRuns.v
theories/SfwLf.v
theories/SfwLfArith.v
theories/SfwLf2.v
theories/SfwLf3.v
theories/SfwLfRuns.v
theories/SfwLfPair.v
theories/SfwLfPairRuns.v
theories/SagaDescent.v
theories/SagaRate.v
theories/RandomizedRuns.v
theories/RandomizedRuns2.v
theories/RandomizedMain4.v
theories/RandomizedMain5.v
theories/ProxEpochs.v
theories/ProxSaga.v
theories/ProxSagaMain.v
theories/ProxSvrg.v
theories/ProxGradRuns.v
theories/EpochRuns.v
theories/ProxEpochsMain.v
theories/ProxEpochsRuns.v
theories/PropsUtils.v
theories/PropsTv.v
theories/PropsTraceSolve.v
theories/PropsTrace.v
theories/PropsTorch.v
theories/PropsStops.v
theories/PropsSplitting.v
theories/PropsSplitLs.v
theories/PropsSfwPair.v
theories/PropsSfwNone.v
theories/PropsSfwMean.v
theories/PropsSfwLfPair.v
theories/PropsSfwLf.v
theories/PropsSfw.v
theories/PropsRandomized.v
theories/PropsProxGrad.v
theories/PropsProxEpochs.v
theories/PropsPenalty.v
theories/ModelMemory.v
theories/MemoryFacts.v
theories/MemoryMain.v
theories/PropsMemory.v
theories/ModelMaxLip.v
theories/MaxLipMain.v
theories/PropsMaxLip.v
theories/LossMain3.v
theories/PropsLoss.v
theories/PropsLinear.v
theories/ModelIntStart.v
theories/IntStartMain.v
theories/ModelIntVrtos.v
theories/IntVrtosMain.v
theories/PropsIntVrtos.v
theories/PropsIntStart.v
theories/ModelIntLoss.v
theories/IntLossMain.v
theories/PropsIntLoss.v
theories/ModelImage.v
theories/ImageMain.v
theories/PropsImage.v
theories/FwPairSteps.v
theories/FwPairSteps2.v
theories/FwPairMain.v
theories/FwPairRuns.v
theories/PropsFwPair.v
theories/FwNoneRuns.v
theories/PropsFwNone.v
theories/PropsFrankWolfe.v
theories/FloatLogistic.v
theories/FloatProx.v
theories/FloatNan.v
theories/FloatSimplex3.v
theories/FloatSimplex4.v
theories/FloatLogistic2.v
theories/FloatGrad.v
theories/FloatGradMain.v
theories/FloatLoss.v
theories/FloatLossMain.v
theories/FloatRuns.v
theories/FloatNorm.v
theories/FloatValue.v
theories/FloatValueMain.v
theories/FloatValueHub.v
theories/FloatLossFin.v
theories/FloatValueFin.v
theories/PropsFloatValue.v
theories/FloatSfwMain.v
theories/FloatPairMain.v
theories/FloatPairRuns.v
theories/FloatBallRuns.v
theories/FloatSfwRuns.v
theories/PropsFloatSfw.v
theories/PropsFloatPair.v
theories/PropsFloatLoss.v
theories/FloatLogValue.v
theories/FloatLogInter.v
theories/PropsFloatLog.v
theories/FloatLip.v
theories/PropsFloatLip.v
theories/FloatL2.v
theories/FloatL2Runs.v
theories/PropsFloatL2.v
theories/FloatGroup.v
theories/FloatGroupMain.v
theories/PropsFloatGroup.v
theories/FloatGradInter.v
theories/PropsFloatGrad.v
theories/FloatGap.v
theories/FloatGapRuns.v
theories/PropsFloatGap.v
theories/PropsFloatBall.v
theories/FloatSimplex5.v
theories/PropsFloat.v
theories/PropsEpochs.v
theories/DatasetsFacts.v
theories/DatasetsMain.v
theories/DatasetsMain2.v
theories/DatasetsRuns.v
theories/DatasetsNamed.v
theories/PropsDatasets.v
theories/PropsConstraint.v
