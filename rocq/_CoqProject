-Q theories Verif
theories/BackwardKernels.v
theories/BackwardProofs.v
theories/BayesProofs.v
theories/CholSingular.v
theories/CholUpdate.v
theories/ConditionalLaw.v
theories/ConditionalProofs.v
theories/DiscreteHyp.v
theories/DiscreteModel.v
theories/DiscreteNan.v
theories/DiscreteProofs.v
theories/DiscreteSpec.v
theories/DiscreteTheorems.v
theories/DiscreteWitness.v
theories/DriverEven.v
theories/DriverProofs.v
theories/DriverSpec.v
theories/DynamaxModel.v
theories/EkfSpec.v
theories/EmModel.v
theories/EmProofs.v
theories/EmSpec.v
theories/Ext.v
theories/FfbsBackward.v
theories/FfbsProofs.v
theories/FfbsSpec.v
theories/FilterOp.v
theories/FloatDiscreteModel.v
theories/FloatDiscreteProofs.v
theories/FloatDiscreteRuns.v
theories/FloatDiscreteSmooth.v
theories/FloatDiscreteSpec.v
theories/FloatModel.v
theories/FloatProofs.v
theories/FloatScan.v
theories/GaussExt.v
theories/GaussExtProofs.v
theories/GaussSpec.v
theories/GenModel.v
theories/GenMoments.v
theories/GenProofs.v
theories/GenReals.v
theories/GenSpec.v
theories/ImhProofs.v
theories/InputsProofs.v
theories/InputsSpec.v
theories/IntertwineProofs.v
theories/InvSqrtProofs.v
theories/InvSqrtSing.v
theories/Iter.v
theories/IterSpec.v
theories/KalmanModel.v
theories/KalmanProofs.v
theories/KalmanRuns.v
theories/KalmanSpec.v
theories/KeyProofs.v
theories/KillingProofs.v
theories/LaplaceProofs.v
theories/LaplaceSpec.v
theories/LinKalmanModel.v
theories/LinObs.v
theories/LinRuns.v
theories/LinSmooth.v
theories/LinSpec.v
theories/LinalgModel.v
theories/LinalgProofs.v
theories/LinalgSpec.v
theories/LinearFilter.v
theories/LinearFilterSpec.v
theories/LinearizeModel.v
theories/LinearizeProofs.v
theories/LinearizeProofs2.v
theories/LinearizeProofs3.v
theories/LinearizeSpec.v
theories/LnMin.v
theories/MarginalPfProofs.v
theories/MarginalRuns.v
theories/MarginalWeights.v
theories/Martingale.v
theories/McmcBackward.v
theories/McmcBias.v
theories/McmcModel.v
theories/McmcProofs.v
theories/McmcSpec.v
theories/Moments.v
theories/MpfUnbiased.v
theories/MultinomialLaw.v
theories/MultinomialPairs.v
theories/MvnExt.v
theories/MvnExtProofs.v
theories/MvnProofs.v
theories/MvnProofs2.v
theories/MvnShapes.v
theories/MxBase.v
theories/OpAlgebra.v
theories/PairBounds.v
theories/PairMean.v
theories/PairSpec.v
theories/ParityRuns.v
theories/PathProofs.v
theories/PathSpec.v
theories/PathTracing.v
theories/PotProofs.v
theories/PotSpec.v
theories/ProductProofs.v
theories/ProductSpec.v
theories/PropCholSingular.v
theories/PropDepth.v
theories/PropDiscrete.v
theories/PropDiscreteNan.v
theories/PropDrivers.v
theories/PropDynamax.v
theories/PropEkf.v
theories/PropEm.v
theories/PropEmMono.v
theories/PropFfbs.v
theories/PropFlat.v
theories/PropFloat.v
theories/PropFloatDiscrete.v
theories/PropFloatUnderflow.v
theories/PropGen.v
theories/PropInputs.v
theories/PropKalman.v
theories/PropLaplace.v
theories/PropLinKalman.v
theories/PropLinObs.v
theories/PropLinSmooth.v
theories/PropLinearize.v
theories/PropMap.v
theories/PropMarginalBias.v
theories/PropMatches.v
theories/PropMcmc.v
theories/PropMcmcBias.v
theories/PropMeanSquare.v
theories/PropMultinomial.v
theories/PropMultinomialPairs.v
theories/PropMvn.v
theories/PropMvnExact.v
theories/PropOptimal.v
theories/PropOutage.v
theories/PropPaths.v
theories/PropPoints.v
theories/PropPotential.v
theories/PropPredict.v
theories/PropPrev.v
theories/PropProduct.v
theories/PropQuad.v
theories/PropQuickstart.v
theories/PropResampling.v
theories/PropScalarNan.v
theories/PropSingular.v
theories/PropSmc.v
theories/PropSmoothElem.v
theories/PropSmoothing.v
theories/PropSurvival.v
theories/PropTracking.v
theories/PropUnbiased.v
theories/PropUnbiasedBuiltin.v
theories/PropZeroDraw.v
theories/PropZeroWeight.v
theories/QuadModel.v
theories/QuadProofs.v
theories/QuadSpec.v
theories/QuickstartModel.v
theories/QuickstartProofs.v
theories/RStruct.v
theories/ResamplingModel.v
theories/ResamplingProofs.v
theories/ResamplingSpec.v
theories/SamplerProofs.v
theories/ScanDepth.v
theories/ScanEven.v
theories/ScanModel.v
theories/ScanProofs.v
theories/ScanStep.v
theories/SeedSpec.v
theories/Seeds.v
theories/Sigmoid.v
theories/SmcDead.v
theories/SmcModel.v
theories/SmcMoments.v
theories/SmcProofs.v
theories/SmcResamplers.v
theories/SmcRuns.v
theories/SmcSpec.v
theories/SmcUnbiased.v
theories/SmootherProofs.v
theories/SpacingPairs.v
theories/Spacings.v
theories/StochVolModel.v
theories/Sums.v
theories/SurvivalSpec.v
theories/SvdExist.v
theories/SystematicProofs.v
theories/TrackingModel.v
theories/TrackingSpec.v
theories/Trajectory.v
theories/TriaExist.v
theories/UnbiasedSpec.v
theories/WorkSpec.v
theories/ZeroDraw.v
theories/ZeroDrawModel.v
theories/ZeroDrawSpec.v
theories/ZmodTac.v
