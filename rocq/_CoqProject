-Q theories Verif
theories/Model/Prelude.v
theories/Model/Data.v
theories/Spec/DataSpec.v
theories/Proofs/DataP.v
theories/Props/DataProps.v
theories/Model/GPState.v
theories/Spec/GPStateSpec.v
theories/Proofs/GPStateP.v
theories/Props/GPStateProps.v
theories/Model/CholUpdate.v
theories/Spec/CholSpec.v
theories/Proofs/CholP.v
theories/Props/CholProps.v
theories/Model/Gp2Scale.v
theories/Spec/Gp2ScaleSpec.v
theories/Proofs/Gp2ScaleP.v
theories/Proofs/Gp2ScaleHistP.v
theories/Props/Gp2ScaleProps.v
theories/Model/LinalgCfg.v
theories/Spec/LinalgCfgSpec.v
theories/Proofs/LinalgCfgP.v
theories/Props/LinalgCfgProps.v
theories/Model/Precond.v
theories/Spec/PrecondSpec.v
theories/Proofs/PrecondP.v
theories/Props/PrecondProps.v
theories/Model/PrecondMx.v
theories/Proofs/PrecondMxP.v
theories/Props/PrecondMxProps.v
theories/Model/Krylov.v
theories/Proofs/KrylovP.v
theories/Props/KrylovProps.v
theories/Model/BlockCG.v
theories/Props/BlockCGProps.v
theories/Model/Ext.v
theories/Model/MCMC.v
theories/Proofs/MCMCP.v
theories/Props/MCMCProps.v
theories/Model/Adapt.v
theories/Props/AdaptProps.v
theories/Model/Actor.v
theories/Spec/ActorSpec.v
theories/Proofs/ActorP.v
theories/Props/ActorProps.v
theories/Model/Training.v
theories/Model/Adam.v
theories/Spec/Sums.v
theories/Props/AdamProps.v
theories/Props/TrainingProps.v
theories/Model/BO.v
theories/Proofs/BOP.v
theories/Props/BOProps.v
theories/Model/Kernels.v
theories/Spec/KernelSpec.v
theories/Spec/KernelSupportSpec.v
theories/Proofs/PsdP.v
theories/Proofs/KernelPsdP.v
theories/Proofs/KernelsP.v
theories/Proofs/KernelGradP.v
theories/Proofs/KernelSupportP.v
theories/Props/KernelsProps.v
theories/Spec/BOSpec.v
theories/Proofs/RealMx.v
theories/Proofs/MxCalc.v
theories/Model/Likelihood.v
theories/Spec/LikelihoodSpec.v
theories/Proofs/LikelihoodP.v
theories/Proofs/LikelihoodEx.v
theories/Props/LikelihoodProps.v
theories/Proofs/PosDef.v
theories/Model/Posterior.v
theories/Spec/PosteriorSpec.v
theories/Proofs/PosteriorP.v
theories/Proofs/PosteriorEx.v
theories/Props/PosteriorProps.v
theories/Model/TaskArray.v
theories/Proofs/TaskArrayP.v
theories/Props/TaskArrayProps.v
theories/Model/Metrics.v
theories/Spec/MetricsSpec.v
theories/Proofs/NormalP.v
theories/Proofs/MetricsP.v
theories/Proofs/GaussP.v
theories/Props/MetricsProps.v
theories/Model/FvGP.v
theories/Spec/FvGPSpec.v
theories/Proofs/FvGPP.v
theories/Props/FvGPProps.v
theories/Model/Registry.v
theories/Proofs/RegistryP.v
theories/Props/RegistryProps.v
theories/Model/Pickle.v
theories/Spec/PickleSpec.v
theories/Proofs/PickleP.v
theories/Props/PickleProps.v
theories/Model/KrylovCache.v
theories/Spec/KrylovCacheSpec.v
theories/Proofs/KrylovCacheP.v
theories/Props/KrylovCacheProps.v
theories/Model/GGMP.v
theories/Model/GGMPDensity.v
theories/Spec/GGMPSpec.v
theories/Spec/GGMPDensitySpec.v
theories/Proofs/GGMPP.v
theories/Proofs/GGMPDensityP.v
theories/Props/GGMPProps.v
theories/Props/GGMPDensityProps.v
theories/Model/Align.v
theories/Spec/AlignSpec.v
theories/Proofs/AlignP.v
theories/Props/AlignProps.v
theories/Model/GmmCache.v
theories/Spec/GmmCacheSpec.v
theories/Proofs/GmmCacheP.v
theories/Props/GmmCacheProps.v
theories/Model/GGMPTrain.v
theories/Spec/GGMPTrainSpec.v
theories/Proofs/GGMPTrainP.v
theories/Props/GGMPTrainProps.v
theories/Model/SampleDist.v
theories/Spec/SampleDistSpec.v
theories/Proofs/SampleDistP.v
theories/Props/SampleDistProps.v
theories/Model/GGMPFit.v
theories/Spec/GGMPFitSpec.v
theories/Proofs/GGMPFitP.v
theories/Props/GGMPFitProps.v
theories/Model/GaussW2.v
theories/Spec/GaussW2Spec.v
theories/Proofs/GaussW2P.v
theories/Props/GaussW2Props.v
theories/Proofs/SpectralP.v
theories/Model/Surrogate.v
theories/Spec/SurrogateSpec.v
theories/Proofs/SurrogateP.v
theories/Props/SurrogateProps.v
theories/Model/Laplace.v
theories/Spec/LaplaceSpec.v
theories/Proofs/LaplaceP.v
theories/Props/LaplaceProps.v
theories/Model/Solvers.v
theories/Spec/SolversSpec.v
theories/Proofs/SolversP.v
theories/Props/SolversProps.v
theories/Model/FiniteDiff.v
theories/Spec/FiniteDiffSpec.v
theories/Proofs/FiniteDiffP.v
theories/Props/FiniteDiffProps.v
theories/Model/TrainPlan.v
theories/Spec/TrainPlanSpec.v
theories/Proofs/TrainPlanP.v
theories/Props/TrainPlanProps.v
theories/Model/GGMPPhases.v
theories/Props/GGMPPhasesProps.v
theories/Proofs/SphereP.v
theories/Proofs/WendlandP.v
theories/Proofs/BlockCGP.v
theories/Model/GpuEngine.v
theories/Props/GpuEngineProps.v
theories/Model/GpuOps.v
theories/Props/GpuOpsProps.v
theories/Model/SolverOpts.v
theories/Props/SolverOptsProps.v
theories/Model/LogdetVar.v
theories/Props/LogdetVarProps.v
theories/Model/SetArgs.v
theories/Props/SetArgsProps.v
theories/Model/BOWarn.v
theories/Props/BOWarnProps.v
theories/Model/Grid.v
theories/Props/GridProps.v
theories/Proofs/LatticeP.v
theories/Proofs/WendlandFiveP.v
theories/Model/LifeCycle.v
theories/Spec/LifeCycleSpec.v
theories/Proofs/LifeEntryP.v
theories/Proofs/LifeCycleP.v
theories/Props/LifeCycleProps.v
theories/Model/AdaptRun.v
theories/Spec/AdaptRunSpec.v
theories/Proofs/AdaptRunP.v
theories/Props/AdaptRunProps.v
theories/Model/MixtureMV.v
theories/Spec/MixtureMVSpec.v
theories/Proofs/MixtureMVP.v
theories/Props/MixtureMVProps.v
theories/Model/TraceFiles.v
theories/Proofs/TraceFilesP.v
theories/Props/TraceFilesProps.v
theories/Model/Spai.v
theories/Spec/SpaiSpec.v
theories/Proofs/SpaiP.v
theories/Props/SpaiProps.v
theories/Model/Rounding.v
theories/Spec/RoundingSpec.v
theories/Proofs/RoundingP.v
theories/Props/RoundingProps.v
theories/Spec/SharingSpec.v
theories/Model/Sharing.v
theories/Spec/SharingRules.v
theories/Proofs/SharingP.v
theories/Props/SharingProps.v
theories/Model/Formats.v
theories/Spec/FormatsSpec.v
theories/Proofs/FormatsP.v
theories/Props/FormatsProps.v
theories/Model/Dims.v
theories/Props/DimsProps.v
theories/Model/DeepKernel.v
theories/Spec/DeepKernelSpec.v
theories/Proofs/DeepKernelP.v
theories/Props/DeepKernelProps.v
theories/Model/Histogram.v
theories/Proofs/HistogramP.v
theories/Props/HistogramProps.v
theories/Model/Copying.v
theories/Props/CopyingProps.v
theories/Model/GpuKernel.v
theories/Proofs/GpuKernelP.v
theories/Props/GpuKernelProps.v
theories/Model/Observations.v
theories/Spec/ObservationsSpec.v
theories/Proofs/ObservationsP.v
theories/Props/ObservationsProps.v
theories/Model/Seeded.v
theories/Proofs/SeededP.v
theories/Props/SeededProps.v
theories/Model/PointGrad.v
theories/Props/PointGradProps.v
theories/Proofs/AlignOrderP.v
theories/Model/DefaultTraining.v
theories/Model/DefaultGP.v
theories/Spec/UnitsSpec.v
theories/Spec/UnitsObsSpec.v
theories/Proofs/UnitsP.v
theories/Proofs/UnitsObsP.v
theories/Proofs/UnitsRefP.v
theories/Props/UnitsProps.v
theories/Proofs/MetricsColP.v
theories/Props/SolverModeProps.v
theories/Spec/RepeatSpec.v
theories/Proofs/RepeatP.v
theories/Props/RepeatProps.v
theories/Spec/LocalSpec.v
theories/Proofs/LocalP.v
theories/Props/LocalProps.v
theories/Model/ThreadPool.v
theories/Spec/ThreadPoolSpec.v
theories/Proofs/ThreadPoolP.v
theories/Props/ThreadPoolProps.v
theories/Model/LargeGP.v
theories/Spec/LargeGPSpec.v
theories/Proofs/LargeListP.v
theories/Proofs/LargeGPP.v
theories/Props/LargeGPProps.v
theories/Spec/LandmarkSpec.v
theories/Props/LandmarkProps.v
theories/Model/AdaptedOp.v
theories/Spec/AdaptedOpSpec.v
theories/Props/AdaptedOpProps.v
theories/Model/GGMPTerms.v
theories/Spec/GGMPTermsSpec.v
theories/Props/GGMPTermsProps.v
theories/Model/MultiGP.v
theories/Spec/MultiGPSpec.v
theories/Proofs/MultiDataP.v
theories/Props/MultiGPProps.v
theories/Model/ObsPlot.v
theories/Spec/ObsPlotSpec.v
theories/Props/ObsPlotProps.v
theories/Model/MixtureInit.v
theories/Spec/MixtureInitSpec.v
theories/Props/MixtureInitProps.v
theories/Model/MixtureGP.v
theories/Spec/MixtureGPSpec.v
theories/Props/MixtureGPProps.v
theories/Spec/MixtureRegSpec.v
theories/Props/MixtureRegProps.v
theories/Spec/MixtureSymSpec.v
theories/Props/MixtureSymProps.v
theories/Spec/BODesignSpec.v
theories/Props/BODesignProps.v
theories/Model/Guidance.v
theories/Spec/GuidanceSpec.v
theories/Props/GuidanceProps.v
theories/Spec/TransportSpec.v
theories/Props/TransportProps.v
theories/Model/TrainBO.v
theories/Proofs/TrainBOP.v
theories/Props/TrainBOProps.v
theories/Model/TrainSession.v
theories/Props/TrainSessionProps.v
theories/Spec/MixtureSplitSpec.v
theories/Props/MixtureSplitProps.v
theories/Model/BOStart.v
theories/Props/BOStartProps.v
theories/Model/MultiTrain.v
theories/Props/MultiTrainProps.v
theories/Spec/ActorRunSpec.v
theories/Props/ActorRunProps.v
theories/Props/ActorStopProps.v
theories/Model/LargeTrain.v
theories/Props/LargeTrainProps.v
theories/Model/LinOp.v
theories/Props/LinOpProps.v
