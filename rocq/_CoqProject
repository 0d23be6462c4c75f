-Q theories Verif
theories/PyPrelude.v
theories/Tensor.v
theories/Spec.v
theories/TorchBase.v
theories/Props_Base.v
theories/Numpy.v
theories/Submatrix.v
theories/Props_Sub.v
theories/Scipy.v
theories/Props_Scipy.v
theories/Inverse.v
theories/Props_Inverse.v
theories/Estimators.v
theories/Props_Estimators.v
theories/Variance.v
theories/Props_Variance.v
theories/RInst.v
theories/Calculus.v
theories/ROrd.v
theories/Curvature.v
theories/HessGGN.v
theories/Risk.v
theories/Losses.v
theories/Fisher.v
theories/FisherMC.v
theories/FisherExp.v
theories/OpSpec.v
theories/CurvOps.v
theories/Props_Curv.v
theories/Props_Fisher.v
theories/Jacobian.v
theories/Props_Jac.v
theories/Determinism.v
theories/Props_Det.v
theories/Kfac.v
theories/KfacSpec.v
theories/KfacProof.v
theories/KfacMap.v
theories/KfacBlocks.v
theories/KfacScalar.v
theories/KfacScalarProof.v
theories/Props_Kfac.v
theories/Conv.v
theories/Props_Conv.v
theories/Props_ConvPos.v
theories/LossHess.v
theories/Props_LossHess.v
theories/KfacCov.v
theories/KfacCovHooks.v
theories/KfacCovSpec.v
theories/KfacCovProof.v
theories/Props_KfacCov.v
theories/Props_KfacMC.v
theories/Props_KfacEnd.v
theories/Props_KfacEx.v
theories/KfacExact.v
theories/Props_KfacExact.v
theories/KfacCalls.v
theories/Props_KfacCalls.v
theories/Props_KfacCallsEx.v
theories/Props_KfacCallsFwd.v
theories/Props_KfacCallsFwdEx.v
theories/KfacState.v
theories/KfacStateProof.v
theories/Props_KfacState.v
theories/Props_KfacStateEx.v
theories/KfacInverse.v
theories/KfacInvProof.v
theories/Props_KfacInverse.v
theories/Props_KfacInvMore.v
theories/Props_KfacInvEx.v
theories/KfacInvState.v
theories/Props_KfacInvState.v
theories/Props_KfacInvStateEx.v
theories/Alias.v
theories/AliasProof.v
theories/AliasRefine.v
theories/Props_Alias.v
theories/Lanczos.v
theories/LanczosAlg.v
theories/LanczosProof.v
theories/Props_Lanczos.v
theories/Props_LanczosEx.v
theories/Props_Spectrum.v
theories/Props_SpectrumCache.v
theories/Props_SpectrumEx.v
theories/Activation.v
theories/ActivationProof.v
theories/Props_Activation.v
theories/ActHess.v
theories/Props_ActHess.v
theories/Props_ActHessEx.v
theories/Functorch.v
theories/FunctorchProof.v
theories/Props_Functorch.v
theories/Props_FunctorchEnv.v
theories/Devices.v
theories/Props_Devices.v
theories/Props_KfacShared.v
theories/Props_KfacSharedScalar.v
theories/Props_KfacSharedInv.v
theories/Export.v
theories/ParamSubset.v
theories/Props_Params.v
theories/HessSplit.v
theories/Props_Split.v
theories/Props_EndToEnd.v
theories/NumpyMem.v
theories/LanczosMem.v
theories/Props_LanczosMem.v
theories/ScipyMem.v
theories/Props_ScipyMem.v
theories/Props_SpectrumMore.v
theories/Props_Lsmr.v
theories/Props_KfacSubset.v
theories/DataSource.v
theories/Props_Data.v
theories/Rounding.v
theories/Props_Rounding.v
theories/Props_Float32.v
theories/Cg.v
theories/Props_Cg.v
theories/Props_CgGgn.v
theories/KfacChecked.v
theories/Props_KfacChecked.v
theories/Props_KfacCheckedEx.v
theories/Report.v
theories/Props_Report.v
theories/Props_ReportRef.v
theories/Workflow.v
theories/Props_Workflow.v
theories/Autograd.v
theories/AutogradProof.v
theories/AutogradLoss.v
theories/Props_Autograd.v
theories/DoubleBack.v
theories/Props_DoubleBack.v
theories/DoubleBackMlp.v
theories/Props_DoubleBackMlp.v
theories/Power.v
theories/Props_Power.v
theories/Props_PowerRisk.v
theories/Blocks.v
theories/Props_Blocks.v
