-Q theories Verif
theories/AcceptExamples.v
theories/AcceptFinal.v
theories/AcceptProofs.v
theories/AcceptSingle.v
theories/AcceptSpec.v
theories/AuxCsmc.v
theories/AuxFinal.v
theories/AuxProofs.v
theories/AuxStruct.v
theories/BackwardProofs.v
theories/CholProofs.v
theories/Csmc.v
theories/CsmcFinal.v
theories/CsmcInvariance.v
theories/CsmcProofs.v
theories/CsmcSpecs.v
theories/DensityAtp.v
theories/DensityAux.v
theories/DensityFinal.v
theories/DensityInst.v
theories/DensityModel.v
theories/DensityProofs.v
theories/DensitySingle.v
theories/DensitySmooth.v
theories/DensitySmoothFinal.v
theories/DensitySmoothSpec.v
theories/DensitySpec.v
theories/DensityTp.v
theories/DensityTwisted.v
theories/Diagnostics.v
theories/DiagnosticsProofs.v
theories/DiagnosticsSpec.v
theories/DiagnosticsWitness.v
theories/DriverProofs.v
theories/DriverSpec.v
theories/Drivers.v
theories/ErgodicAverage.v
theories/ErgodicChain.v
theories/ErgodicContracts.v
theories/ErgodicCsmc.v
theories/ErgodicFinal.v
theories/ErgodicSingle.v
theories/ErgodicSingleSpec.v
theories/ErgodicSpec.v
theories/ErgodicSweep.v
theories/ErgodicTheory.v
theories/ErgodicTp.v
theories/Esjd.v
theories/EsjdDraws.v
theories/EsjdFinal.v
theories/EsjdProofs.v
theories/EsjdSpec.v
theories/ExperimentGrid.v
theories/ExperimentKeys.v
theories/ExperimentMore.v
theories/ExperimentProofs.v
theories/ExperimentSpec.v
theories/ExperimentSv.v
theories/Experiments.v
theories/FrozenPath.v
theories/FrozenTheory.v
theories/Gauss.v
theories/GaussProofs.v
theories/GaussSpec.v
theories/Integral.v
theories/Kalman.v
theories/KalmanPaths.v
theories/KalmanProofs.v
theories/KalmanSpec.v
theories/KeyProofs.v
theories/KillingProofs.v
theories/LimitAux.v
theories/LimitCsmc.v
theories/LimitPrior.v
theories/LimitSpec.v
theories/LimitStep.v
theories/LimitTheory.v
theories/LimitTp.v
theories/LimitWitness.v
theories/MarginalFinal.v
theories/MarginalProofs.v
theories/MoveProofs.v
theories/MoveTests.v
theories/MoveWitness.v
theories/NanAgree.v
theories/NanAl.v
theories/NanAlFinal.v
theories/NanAlProofs.v
theories/NanAtp.v
theories/NanAtpFinal.v
theories/NanAtpProofs.v
theories/NanAtpSafe.v
theories/NanCsmc.v
theories/NanExamples.v
theories/NanFinal.v
theories/NanImh.v
theories/NanImhProofs.v
theories/NanL.v
theories/NanLFinal.v
theories/NanLProofs.v
theories/NanLater.v
theories/NanLaterAux.v
theories/NanNumbers.v
theories/NanProofs.v
theories/NanProps.v
theories/NanRw.v
theories/NanRwFinal.v
theories/NanRwProofs.v
theories/NanSafe.v
theories/NanSingle.v
theories/NanSingleFail.v
theories/NanSingleForce.v
theories/NanSingleProofs.v
theories/NanSingleRuns.v
theories/NanSpec.v
theories/NanTheory.v
theories/NanTpProofs.v
theories/NanTwisted.v
theories/NanTwistedInv.v
theories/NanTwistedProofs.v
theories/NewtonIntegral.v
theories/OneStep.v
theories/OneStepReal.v
theories/PathTheory.v
theories/PriorLogpdf.v
theories/PriorLogpdfProofs.v
theories/Prog.v
theories/ProgTheory.v
theories/ProperProofs.v
theories/ProperSpec.v
theories/Proposal.v
theories/ProposalProofs.v
theories/PropsAccept.v
theories/PropsAcceptSingle.v
theories/PropsAux.v
theories/PropsCsmc.v
theories/PropsDensity.v
theories/PropsDensitySingle.v
theories/PropsDensitySmooth.v
theories/PropsDensityTp.v
theories/PropsDensityTwisted.v
theories/PropsDiagnostics.v
theories/PropsDrivers.v
theories/PropsErgodic.v
theories/PropsErgodicSingle.v
theories/PropsErgodicTp.v
theories/PropsEsjd.v
theories/PropsExperiments.v
theories/PropsGauss.v
theories/PropsKalman.v
theories/PropsLimit.v
theories/PropsMoveTests.v
theories/PropsNan.v
theories/PropsNanAl.v
theories/PropsNanAtp.v
theories/PropsNanImh.v
theories/PropsNanL.v
theories/PropsNanRw.v
theories/PropsNanSingle.v
theories/PropsNanTwisted.v
theories/PropsPriorLogpdf.v
theories/PropsProper.v
theories/PropsProposal.v
theories/PropsReduce.v
theories/PropsResampling.v
theories/PropsRunAccept.v
theories/PropsRunDeviation.v
theories/PropsRuns.v
theories/PropsSingle.v
theories/PropsSmooth.v
theories/PropsStepSizes.v
theories/PropsTables.v
theories/PropsTp.v
theories/PropsTwisted.v
theories/RInst.v
theories/Resampling.v
theories/ResamplingProofs.v
theories/ResamplingSpecs.v
theories/RunAccept.v
theories/RunAcceptSpec.v
theories/RunDeviation.v
theories/RunFinal.v
theories/RunProofs.v
theories/RunSpec.v
theories/Runs.v
theories/ShiftTheory.v
theories/Single.v
theories/SingleFinal.v
theories/SingleProofs.v
theories/SingleReal.v
theories/SingleSpec.v
theories/SmcTheory.v
theories/Smooth.v
theories/SmoothBack.v
theories/SmoothFinal.v
theories/SmoothKeys.v
theories/SmoothProofs.v
theories/SmoothSpec.v
theories/SmoothWitness.v
theories/Spec.v
theories/StepSizes.v
theories/StepSizesProofs.v
theories/StepSizesSpec.v
theories/SweepTheory.v
theories/Tables.v
theories/TablesAcf.v
theories/TablesProofs.v
theories/TablesSpec.v
theories/ThreeSteps.v
theories/TpCsmc.v
theories/TpFinal.v
theories/TpProofs.v
theories/TpReal.v
theories/Twisted.v
theories/TwistedKernel.v
theories/TwistedProofs.v
theories/TwistedReal.v
theories/Univariate.v
