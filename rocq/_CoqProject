-Q theories Verif
theories/Base.v
theories/SparMat.v
theories/SparMatFacts.v
theories/CoefOp.v
theories/CoefOpAlg.v
theories/CoefOpFacts.v
theories/Compress.v
theories/Fsm.v
theories/Numeric.v
theories/Chain.v
theories/Progress.v
theories/Progress2.v
theories/ChainProgress.v
theories/FsmFacts.v
theories/FsmMat.v
theories/FsmSem.v
theories/MpoGen.v
theories/MpoGenFacts.v
theories/MpoSpec.v
theories/MpoGenSem.v
theories/MpoTen.v
theories/Grading.v
theories/Labels.v
theories/MpoTenSpec.v
theories/MpoTenFacts.v
theories/MpoSort.v
theories/MpoChain.v
theories/MpoTopSpec.v
theories/MpoTop.v
theories/SparSpec.v
theories/SparHist.v
theories/SparEq.v
theories/MpoRunSpec.v
theories/MpoRun.v
theories/MpoRunAll.v
theories/Release.v
theories/MpoMisc.v
theories/MpoInst.v
theories/MpoPropFacts.v
theories/Prop_Mpo.v
theories/FiniteMps.v
theories/FmpsSpec.v
theories/FmpsFacts.v
theories/FmpsTruth.v
theories/FmpsNorm.v
theories/FmpsInst.v
theories/Prop_Mps.v
theories/DuoVec.v
theories/DuoSpec.v
theories/DuoFacts.v
theories/Names.v
theories/DuoIo.v
theories/Prop_Own.v
theories/Disk.v
theories/TwoSite.v
theories/SweepSpec.v
theories/DiskFacts.v
theories/TwoSiteFacts.v
theories/TwoSiteCrash.v
theories/SweepInst.v
theories/Prop_Sweep.v
theories/VmpsInit.v
theories/NoiseSpec.v
theories/VmpsInitFacts.v
theories/Noise.v
theories/NoiseFacts.v
theories/VmpsTen.v
theories/NoiseRule.v
theories/NoiseMore.v
theories/NoiseInst.v
theories/Prop_Noise.v
theories/Cover.v
theories/CoverFacts.v
theories/Lanczos.v
theories/LanczosSpec.v
theories/LanczosFacts.v
theories/LanczosEig.v
theories/LanczosExp.v
theories/LanczosInst.v
theories/Prop_Solver.v
theories/Dmrg.v
theories/DmrgSpec.v
theories/DmrgFacts.v
theories/DmrgMore.v
theories/DmrgInst.v
theories/Prop_Dmrg.v
theories/EffHam.v
theories/EffHamSpec.v
theories/EffHamFacts.v
theories/EffHamInst.v
theories/Prop_EffHam.v
theories/Mpi.v
theories/MpiStar.v
theories/FarmSpec.v
theories/Farm.v
theories/FarmFacts.v
theories/FarmInst.v
theories/Prop_Farm.v
theories/Farm2.v
theories/Farm2Facts.v
theories/Gather.v
theories/GatherFacts.v
theories/DmrgFarm.v
theories/DmrgFarmFacts.v
theories/Prop_DmrgMpi.v
theories/Protocol.v
theories/ProtocolFacts.v
theories/Prop_Orders.v
theories/Threads.v
theories/ThreadsFacts.v
theories/ThreadsSweep.v
theories/ThreadsRun.v
theories/Prop_Threads.v
theories/Tdvp.v
theories/TdvpSpec.v
theories/TdvpFacts.v
theories/TdvpRun.v
theories/Prop_Tdvp.v
theories/Ops.v
theories/FermionSpec.v
theories/FermionFacts.v
theories/OpsSpec.v
theories/OpsFacts.v
theories/OpsModels.v
theories/OpsTables.v
theories/OpsInst.v
theories/Prop_Ops.v
theories/MpsInit.v
theories/MpsInitFacts.v
theories/Prop_Init.v
theories/FinMpo.v
theories/FinMpoSpec.v
theories/FinMpoFacts.v
theories/FinMpoExp.v
theories/Prop_FinMpo.v
theories/Params.v
theories/Prop_Params.v
theories/Measure.v
theories/MeasureSpec.v
theories/MeasureFacts.v
theories/MeasureChain.v
theories/MeasureMem.v
theories/MeasureDisk.v
theories/Prop_Measure.v
theories/IFsm.v
theories/IFsmFacts.v
theories/Prop_Impo.v
theories/SingleSite.v
theories/SingleSpec.v
theories/SingleFacts.v
theories/SingleCrash.v
theories/SingleInst.v
theories/Prop_Single.v
theories/Legs.v
theories/VmpsLocal.v
theories/VmpsSpec.v
theories/VmpsEnv.v
theories/VmpsHeff.v
theories/VmpsShift.v
theories/VmpsState.v
theories/VmpsTasks.v
theories/VmpsDmrg.v
theories/VmpsInst.v
theories/Prop_Vmps.v
theories/Krylov.v
theories/KrylovSpec.v
theories/KrylovFacts.v
theories/KrylovMain.v
theories/KrylovRun.v
theories/KrylovInst.v
theories/Prop_Krylov.v
theories/DmrgTasks.v
theories/DmrgTasksFacts.v
theories/Prop_DmrgTasks.v
theories/Cx.v
theories/ChainSpec.v
theories/ChainFacts.v
theories/DmrgUpdate.v
theories/DmrgStep.v
theories/DmrgVarSpec.v
theories/DmrgVar.v
theories/DmrgVarRun.v
theories/DmrgVarInst.v
theories/Prop_Variational.v
theories/GVec.v
theories/GVecFacts.v
theories/ChainOne.v
theories/ChainUpdate.v
theories/ChainPair.v
theories/ConserveSpec.v
theories/ConserveFacts.v
theories/ConserveRun.v
theories/ConserveVmps.v
theories/ConserveDisk.v
theories/ConserveInst.v
theories/Prop_Conserve.v
theories/ChainSplit.v
theories/SingleUpdate.v
theories/SingleVarSpec.v
theories/SingleVar.v
theories/SingleVarRun.v
theories/SingleVarInst.v
theories/Prop_SingleVar.v
theories/NoiseUpdate.v
theories/NoiseChain.v
theories/NoiseVarSpec.v
theories/NoiseVar.v
theories/NoiseGauge.v
theories/NoiseVarPrep.v
theories/NoiseVarRun.v
theories/NoiseVarBounds.v
theories/NoiseVarInst.v
theories/Prop_NoiseVar.v
theories/CorrUpdate.v
theories/CorrSpec.v
theories/CorrFacts.v
theories/CorrChain.v
theories/CorrRun.v
theories/CorrInst.v
theories/Prop_Corr.v
theories/TruncUpdate.v
theories/TruncSpec.v
theories/TruncFacts.v
theories/TruncRun.v
theories/GVecEigen.v
theories/EigenSpec.v
theories/EigenFacts.v
theories/EigenRun.v
theories/EigenRecord.v
theories/EigenInst.v
theories/Prop_Eigen.v
theories/TruncInst.v
theories/TruncCase.v
theories/Prop_Trunc.v
theories/MpoUse.v
theories/EndSpec.v
theories/MpoUseFacts.v
theories/EndRun.v
theories/EndFloor.v
theories/EndInst.v
theories/Prop_End.v
theories/TruncMps.v
theories/TruncMpsSpec.v
theories/TruncMpsMath.v
theories/TruncMpsFacts.v
theories/TruncMpsRun.v
theories/TruncMpsInst.v
theories/Prop_TruncMps.v
theories/EntropyMps.v
theories/EntropySpec.v
theories/EntropyMath.v
theories/EntropyChain.v
theories/EntropyRun.v
theories/EntropyInst.v
theories/Prop_Entropy.v
theories/MpoCano.v
theories/MpoCanoSpec.v
theories/MpoMath.v
theories/MpoCanoFacts.v
theories/MpoCanoRun.v
theories/MpoTrunc.v
theories/MpoCanoInst.v
theories/Prop_MpoCano.v
theories/MpoVar.v
theories/MpoVarSpec.v
theories/MpoVarEnv.v
theories/MpoVarStep.v
theories/MpoVarRun.v
theories/MpoSquare.v
theories/MpoVarTop.v
theories/MpoVarInst.v
theories/Prop_MpoVar.v
theories/ExpMpo.v
theories/ExpMpoSpec.v
theories/ExpMath.v
theories/ExpRun.v
theories/ExpMpoInst.v
theories/ExpMpoCase.v
theories/Prop_ExpMpo.v
theories/DmrgTrunc.v
theories/DmrgTruncSpec.v
theories/DmrgTruncFacts.v
theories/DmrgTruncRun.v
theories/ThinQr.v
theories/DmrgTruncInst.v
theories/DmrgTruncBound.v
theories/DmrgFull.v
theories/Prop_DmrgTrunc.v
theories/SectorSpec.v
theories/SectorFacts.v
theories/SectorRun.v
theories/SectorInst.v
theories/Prop_Sector.v
theories/DmrgSectorSpec.v
theories/DmrgSectorFacts.v
theories/DmrgSectorRun.v
theories/DmrgSectorInst.v
theories/Prop_DmrgSector.v
theories/SelectSpec.v
theories/SelectFacts.v
theories/SelectInst.v
theories/Prop_Select.v
theories/DmrgEigenSpec.v
theories/DmrgEigenFacts.v
theories/DmrgEigenInst.v
theories/Prop_DmrgEigen.v
theories/TdvpAgainSpec.v
theories/TdvpAgainFacts.v
theories/Prop_TdvpAgain.v
theories/VmpsSelect.v
theories/VmpsSelectFacts.v
theories/Prop_VmpsSelect.v
theories/SiteVecModel.v
theories/SiteVecFacts.v
theories/Prop_SiteVec.v
theories/NoiseCrashFacts.v
theories/Prop_NoiseCrash.v
theories/DmrgCrashFacts.v
theories/Prop_DmrgCrash.v
