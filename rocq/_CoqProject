-Q theories Verif
theories/Prelude.v
theories/ExtReal.v
theories/Spec.v
theories/Hungarian.v
theories/HungarianProofs.v
theories/HungarianTop.v
theories/HungarianFloat.v
theories/HungarianRound.v
theories/HungarianSim.v
theories/HungarianIeee.v
theories/Helpers.v
theories/HelpersProofs.v
theories/PermProofs.v
theories/DbProofs.v
theories/Batch.v
theories/BatchProofs.v
theories/HungarianZ.v
theories/Sums.v
theories/Fft.v
theories/FftProofs.v
theories/Slice.v
theories/Linalg.v
theories/LinalgProofs.v
theories/Cgd.v
theories/Metrics.v
theories/SpecSig.v
theories/StatsProofs.v
theories/LeastSq.v
theories/PrepProofs.v
theories/MetricsProofs.v
theories/SarProofs.v
theories/ProjTheorems.v
theories/MetricTheorems.v
theories/Invariance.v
theories/Outputs.v
theories/CgdOps.v
theories/CgdPrecond.v
theories/CgProofs.v
theories/CgCirc.v
theories/Cells.v
theories/CgTheorems.v
theories/Diag.v
theories/Symmetry.v
theories/SarSymmetry.v
theories/Relabel.v
theories/Edge.v
theories/Solvability.v
theories/Witness.v
theories/SigExamples.v
theories/Glue.v
theories/Examples.v
theories/Api.v
theories/ApiProofs.v
theories/DbFloat.v
theories/Shapes.v
theories/ShapesProofs.v
theories/Compat.v
theories/CompatProofs.v
theories/SiRound.v
theories/SiRoundProofs.v
theories/SiRoundFlt.v
theories/CgRate.v
theories/CgRateToep.v
theories/CgRateSdr.v
theories/CgRateExamples.v
theories/BlockPrec.v
theories/BlockCg.v
theories/BlockRate.v
theories/BlockGlue.v
theories/BlockExamples.v
theories/BlockWitness.v
theories/FastPath.v
theories/Gradient.v
theories/GradientExamples.v
theories/Relations.v
theories/Silence.v
theories/Remix.v
theories/Decompose.v
theories/Delay.v
theories/RelExamples.v
theories/Tensor.v
theories/TensorOps.v
theories/TensorCg.v
theories/TensorProofs.v
theories/TensorSdr.v
theories/TensorDiag.v
theories/TensorBlock.v
theories/TensorBss.v
theories/TensorEval.v
theories/TensorExamples.v
theories/Sensitivity.v
theories/SensitivityDb.v
theories/SensitivityRef.v
theories/SiGram.v
theories/SumEst.v
theories/LoadBias.v
theories/Autograd.v
theories/AutogradFft.v
theories/AutogradEntry.v
theories/AutogradProofs.v
theories/AutogradTheorems.v
theories/AutogradExamples.v
theories/Perturb.v
theories/AutogradRef.v
theories/AutogradRefAdjoint.v
theories/AutogradRefDeriv.v
theories/AutogradRefProofs.v
theories/AutogradRefExamples.v
theories/CgApi.v
theories/CgApiProofs.v
theories/CgApiTheorems.v
theories/CgApiExamples.v
theories/CgBroadcast.v
theories/AutogradCg.v
theories/AutogradCgAdjoint.v
theories/AutogradCgProofs.v
theories/AutogradCgTheorems.v
theories/AutogradCgExamples.v
theories/AutogradPit.v
theories/AutogradPitProofs.v
theories/AutogradPitTheorems.v
theories/AutogradPitNan.v
theories/AutogradPitExamples.v
theories/Rank.v
theories/RankRaise.v
theories/RankExamples.v
theories/AutogradBss.v
theories/AutogradBssForms.v
theories/AutogradBssProofs.v
theories/AutogradBssTheorems.v
theories/AutogradBssExamples.v
theories/OneRef.v
theories/OneRefExamples.v
theories/Inexact.v
theories/InexactExamples.v
theories/SarMono.v
theories/Recover.v
theories/RecoverExamples.v
theories/Strided.v
theories/StridedProofs.v
theories/StridedBlock.v
theories/StridedExamples.v
theories/Choice.v
theories/ChoiceExamples.v
theories/Empty.v
theories/EmptyProofs.v
theories/IntOpts.v
theories/IntOptsProofs.v
theories/IntOptsCg.v
theories/NegLoad.v
theories/NegLoadExamples.v
theories/TimeRev.v
theories/SiMean.v
theories/SiMeanProofs.v
theories/SiOverflow.v
theories/SiOverflowProofs.v
theories/Snr.v
theories/FftSize.v
theories/FftSizeProofs.v
theories/Share.v
theories/ShareExamples.v
theories/FftRound.v
theories/FftRoundProofs.v
theories/FftRoundExamples.v
theories/FftRoundSar.v
theories/FftRoundSarProofs.v
theories/FftRoundSarExamples.v
theories/Apriori.v
theories/NormRound.v
theories/NormRoundExamples.v
theories/PropertiesAssign.v
theories/PropertiesAssignFloat.v
theories/PropertiesDb.v
theories/PropertiesMetrics.v
theories/PropertiesSym.v
theories/PropertiesCg.v
theories/PropertiesEdge.v
theories/PropertiesApi.v
theories/PropertiesShape.v
theories/PropertiesRound.v
theories/PropertiesGrad.v
theories/PropertiesRate.v
theories/PropertiesBlock.v
theories/PropertiesRelations.v
theories/PropertiesTensor.v
theories/PropertiesSens.v
theories/PropertiesAutograd.v
theories/PropertiesAutogradRef.v
theories/PropertiesCgApi.v
theories/PropertiesAutogradCg.v
theories/PropertiesAutogradPit.v
theories/PropertiesRank.v
theories/PropertiesBssGrad.v
theories/PropertiesOneRef.v
theories/PropertiesInexact.v
theories/PropertiesSarMono.v
theories/PropertiesRecover.v
theories/PropertiesStrided.v
theories/PropertiesChoice.v
theories/PropertiesEmpty.v
theories/PropertiesIntOpts.v
theories/PropertiesNegLoad.v
theories/PropertiesTimeRev.v
theories/PropertiesSiMean.v
theories/PropertiesSiOverflow.v
theories/PropertiesSnr.v
theories/PropertiesFftSize.v
theories/PropertiesShare.v
theories/PropertiesFftRound.v
theories/PropertiesFftRoundSar.v
theories/PropertiesApriori.v
theories/PropertiesNormRound.v
