-Q theories Verif
theories/Res.v
theories/Scalar.v
theories/Lap.v
theories/LapSpec.v
theories/LapBase.v
theories/LapScan.v
theories/LapArr.v
theories/LapDij.v
theories/LapTerm.v
theories/LapMain.v
theories/PropsLap.v
theories/CC.v
theories/CCSpec.v
theories/CCProofs.v
theories/PropsCC.v
theories/Murty.v
theories/MurtyBase.v
theories/MurtySub.v
theories/MurtyDual.v
theories/MurtyProofs.v
theories/MurtyMain.v
theories/PropsMurty.v
theories/MurtyApi.v
theories/Cluster.v
theories/ClusterSpec.v
theories/ClusterProofs.v
theories/ClusterMain.v
theories/PropsCluster.v
theories/RTree.v
theories/RTreeSpec.v
theories/RTreeSplit.v
theories/RTreeProofs.v
theories/RTreeIter.v
theories/RTreeInst.v
theories/PropsRTree.v
theories/Tracker.v
theories/TrackerSpec.v
theories/TrackerProofs.v
theories/TrackerPar.v
theories/TrackerCluster.v
theories/TrackerMain.v
theories/TrackerHist.v
theories/PropsTracker.v
theories/GM.v
theories/GMSpec.v
theories/GMProofs.v
theories/PropsGM.v
theories/TrackerOps.v
theories/TrackerOpsSpec.v
theories/TrackerOpsProofs.v
theories/TrackerOpsMain.v
theories/PropsTrackerOps.v
theories/Trig.v
theories/Box.v
theories/BoxSpec.v
theories/BoxProofs.v
theories/PropsBox.v
theories/Cf.v
theories/CfSpec.v
theories/CfProofs.v
theories/CfOlson.v
theories/CfNewton.v
theories/CfOlsonLow.v
theories/CfOlsonHigh.v
theories/CfMain.v
theories/PropsCf.v
theories/Bind.v
theories/BindProofs.v
theories/PropsBind.v
theories/PF.v
theories/PFSpec.v
theories/PFProofs.v
theories/PFMoments.v
theories/PropsPF.v
theories/Metric.v
theories/MetricSpec.v
theories/MetricProofs.v
theories/MetricMain.v
theories/MetricWitness.v
theories/PropsMetric.v
theories/CV.v
theories/CVSpec.v
theories/CVProofs.v
theories/PropsCV.v
theories/Kalman.v
theories/KalmanSpec.v
theories/KalmanProofs.v
theories/KalmanMain.v
theories/RField.v
theories/KalmanReal.v
theories/KalmanWitness.v
theories/PropsKalman.v
theories/Eval.v
theories/EvalSpec.v
theories/EvalProofs.v
theories/EvalGeo.v
theories/EvalMain.v
theories/EvalFlat.v
theories/EvalWitness.v
theories/PropsEval.v
theories/View.v
theories/ViewProofs.v
theories/ViewEquator.v
theories/StepSpec.v
theories/StepProofs.v
theories/NearSpec.v
theories/NearProofs.v
theories/StepMain.v
theories/NearWitness.v
theories/PropsView.v
theories/PropsStep.v
theories/PropsNear.v
theories/CompSpec.v
theories/CompProofs.v
theories/Lively.v
theories/GaussOps.v
theories/CovSpec.v
theories/CovProofs.v
theories/CovMain.v
theories/PropsCov.v
theories/MissSpec.v
theories/MissProofs.v
theories/MissWitness.v
theories/PropsMiss.v
theories/FloatBase.v
theories/RTreeFloat.v
theories/PropsRTreeFloat.v
theories/Race.v
theories/RaceProofs.v
theories/Access.v
theories/AccessProofs.v
theories/RaceMain.v
theories/PropsRace.v
theories/FloatExt.v
theories/LapHom.v
theories/LapRnd.v
theories/LapRndArr.v
theories/LapRndDij.v
theories/LapFloatMain.v
theories/LapErrDij.v
theories/LapErrMain.v
theories/LapSlow.v
theories/PropsLapFloat.v
theories/MurtyHom.v
theories/MurtyRnd.v
theories/MurtyFloatMain.v
theories/PropsMurtyFloat.v
theories/ClusterFloat.v
theories/FloatSum.v
theories/ClusterFloatLoop.v
theories/ClusterFloatNum.v
theories/ClusterFloatClose.v
theories/ClusterFloatMain.v
theories/ClusterFloatRange.v
theories/ClusterFloatWitness.v
theories/PropsClusterFloat.v
theories/Summary.v
theories/SummaryProofs.v
theories/PropsSummary.v
theories/GMFloat.v
theories/GMFloatSpec.v
theories/GMFloatProofs.v
theories/GMFloatMatch.v
theories/GMFloatCost.v
theories/GMFloatBayes.v
theories/GMFloatWitness.v
theories/PropsGMFloat.v
theories/Sample.v
theories/SampleSpec.v
theories/SampleProofs.v
theories/SampleWitness.v
theories/PropsSample.v
theories/KalmanFloat.v
theories/KalmanFloatSpec.v
theories/KalmanFloatProofs.v
theories/KalmanFloatErr.v
theories/KalmanFloatMain.v
theories/KalmanFloatWitness.v
theories/KalmanCorrSpec.v
theories/KalmanCorr.v
theories/KalmanCorrMain.v
theories/LikFloat.v
theories/LikFloatSpec.v
theories/LikFloatProofs.v
theories/MixFloat.v
theories/MixFloatSpec.v
theories/MixFloatProofs.v
theories/MixFloatWitness.v
theories/PropsLikFloat.v
theories/PropsKalmanFloat.v
theories/JsonSpec.v
theories/JsonProofs.v
theories/Repr.v
theories/ReprSpec.v
theories/ReprProofs.v
theories/ReprOnly.v
theories/ReprMain.v
theories/PropsRepr.v
theories/PosteriorSpec.v
theories/PosteriorProofs.v
theories/PosteriorMain.v
theories/PropsPosterior.v
theories/SplitSpec.v
theories/SplitProofs.v
theories/SplitMain.v
theories/PropsSplit.v
theories/LossSpec.v
theories/LossProofs.v
theories/MixSpec.v
theories/MixProofs.v
theories/PropsMix.v
theories/PredictFloat.v
theories/PredictFloatSpec.v
theories/PredictFloatProofs.v
theories/PredictFloatMain.v
theories/PredictFloatWitness.v
theories/PropsPredictFloat.v
theories/SceneFloat.v
theories/SceneFloatSpec.v
theories/SceneFloatProofs.v
theories/SceneFloatWitness.v
theories/PropsScene.v
theories/JoinFloat.v
theories/JoinFloatSpec.v
theories/JoinFloatOrder.v
theories/JoinFloatProofs.v
theories/JoinFloatWitness.v
theories/PropsJoinFloat.v
theories/StepFloat.v
theories/StepFloatSpec.v
theories/StepFloatProofs.v
theories/PropsStepFloat.v
theories/FewTargetsProofs.v
theories/PropsFewTargets.v
theories/MeanFloat.v
theories/MeanFloatSpec.v
theories/MeanFloatProofs.v
theories/PropsMeanFloat.v
theories/ViableFloat.v
theories/ViableFloatSpec.v
theories/ViableFloatProofs.v
theories/PropsViableFloat.v
theories/BoxFloat.v
theories/BoxFloatSpec.v
theories/BoxFloatProofs.v
theories/PropsBoxFloat.v
theories/PruneFloat.v
theories/PruneFloatSpec.v
theories/PruneFloatProofs.v
theories/PropsPruneFloat.v
theories/OverlapFloat.v
theories/OverlapFloatSpec.v
theories/OverlapFloatProofs.v
theories/PropsOverlapFloat.v
theories/PosPdf.v
theories/PosPdfSpec.v
theories/PosPdfProofs.v
theories/PropsPosPdf.v
