-Q theories Verif
theories/Py.v
theories/Model_Base.v
theories/Spec_Base.v
theories/Proofs_Base_View.v
theories/Proofs_Base_Family.v
theories/Proofs_Base_Inv.v
theories/Proofs_Base_Share.v
theories/Proofs_Base_Copy.v
theories/Proofs_Base_Fail.v
theories/Properties_Base.v
theories/NdArray.v
theories/Model_Utils.v
theories/Spec_Utils.v
theories/Proofs_Utils.v
theories/Properties_Utils.v
theories/LinAlg.v
theories/Model_Operator.v
theories/Spec_Operator.v
theories/Proofs_OpCore.v
theories/Proofs_Operator.v
theories/Proofs_Operator2.v
theories/Proofs_Recovery.v
theories/Proofs_Dynamics.v
theories/Ideal.v
theories/Examples_Operator.v
theories/Refuted_Operator.v
theories/Properties_Operator.v
theories/Model_MrDMD.v
theories/Spec_MrDMD.v
theories/Proofs_MrDMD_Tree.v
theories/Proofs_MrDMD_Time.v
theories/Proofs_MrDMD_Log.v
theories/Proofs_MrDMD_Fit.v
theories/Proofs_MrDMD.v
theories/Proofs_MrDMD_Refit.v
theories/Properties_MrDMD.v
theories/Properties_MrDMDWhole.v
theories/Model_Hankel.v
theories/Spec_Hankel.v
theories/Proofs_Hankel.v
theories/Properties_Hankel.v
theories/Model_PrePost.v
theories/Spec_PrePost.v
theories/Proofs_PrePost.v
theories/Properties_PrePost.v
theories/Model_PrePostAlg.v
theories/Proofs_PrePostAlg.v
theories/Properties_PrePostAlg.v
theories/Model_Tuner.v
theories/Spec_Tuner.v
theories/Proofs_Tuner.v
theories/Proofs_TunerHeap.v
theories/Proofs_TunerLink.v
theories/Properties_Tuner.v
theories/Model_DMDc.v
theories/Spec_DMDc.v
theories/Proofs_DMDc.v
theories/Examples_DMDc.v
theories/Properties_DMDc.v
theories/Model_CDMD.v
theories/Spec_CDMD.v
theories/Proofs_CDMD.v
theories/Properties_CDMD.v
theories/Witness.v
theories/Model_PiDMD.v
theories/Spec_PiDMD.v
theories/Proofs_PiAlg.v
theories/Proofs_PiDMD.v
theories/Proofs_PiDft.v
theories/Proofs_PiCirc.v
theories/Proofs_PiToep.v
theories/Properties_PiDMD.v
theories/Model_Param.v
theories/Spec_Param.v
theories/Proofs_Param.v
theories/Properties_Param.v
theories/Proofs_OptAmp.v
theories/Properties_OptAmp.v
theories/Model_SpDMD.v
theories/Spec_SpDMD.v
theories/Proofs_SpDMD.v
theories/Properties_SpDMD.v
theories/Model_Havok.v
theories/Proofs_Havok.v
theories/Properties_Havok.v
theories/Model_HavokFit.v
theories/Proofs_HavokFit.v
theories/Properties_HavokFit.v
theories/Proofs_Krylov.v
theories/Proofs_Compress.v
theories/Model_Subspace.v
theories/Spec_Subspace.v
theories/Proofs_Subspace.v
theories/Proofs_Subspace2.v
theories/Properties_Subspace.v
theories/Properties_EndToEnd.v
theories/Model_OptDMD.v
theories/Proofs_EckartYoung.v
theories/Properties_OptDMD.v
theories/Model_EDMD.v
theories/Spec_EDMD.v
theories/Proofs_EDMD.v
theories/Properties_EDMD.v
theories/Model_BOP.v
theories/Spec_BOP.v
theories/Proofs_BOPEig.v
theories/Proofs_BOPVar.v
theories/Proofs_BOPJac.v
theories/Proofs_BOPBag.v
theories/Proofs_BOP.v
theories/BOPFloor.v
theories/Properties_BOP.v
theories/Properties_BOPBag.v
theories/Properties_BOPFit.v
theories/Model_CostsWin.v
theories/Spec_CostsWin.v
theories/Proofs_CostsWin.v
theories/Properties_CostsWin.v
theories/Model_Costs.v
theories/Spec_Costs.v
theories/Proofs_Costs.v
theories/Proofs_CostsBand.v
theories/Proofs_CostsFit.v
theories/Proofs_CostsLoop.v
theories/Properties_Costs.v
theories/Properties_CostsBand.v
theories/Properties_CostsFit.v
theories/Properties_CostsExact.v
theories/Properties_CostsCase.v
theories/Model_Lando.v
theories/Spec_Lando.v
theories/Proofs_Lando.v
theories/Proofs_LandoDict.v
theories/Proofs_LandoOnline.v
theories/Proofs_LandoFit.v
theories/Proofs_LandoKernel.v
theories/Properties_Lando.v
theories/Properties_LandoEx.v
theories/Proofs_LandoDeriv.v
theories/Properties_LandoFix.v
theories/Properties_LandoAgain.v
theories/Model_VarPro.v
theories/Proofs_VarPro.v
theories/Proofs_Limit.v
theories/Proofs_VarProJac.v
theories/Spec_VarPro.v
theories/Properties_VarPro.v
theories/Proofs_VarProFit.v
theories/Properties_VarProFit.v
theories/Properties_VarProObj.v
theories/Properties_VarProEx.v
theories/Properties_BOPGrad.v
theories/Properties_BOPDamp.v
theories/Model_MrCosts.v
theories/Spec_MrCosts.v
theories/Proofs_MrInterp.v
theories/Proofs_MrCosts.v
theories/Proofs_MrFit.v
theories/Properties_MrCosts.v
theories/Properties_MrCostsBad.v
theories/Properties_MrCostsCase.v
theories/Properties_MrCostsSweep.v
theories/Model_CostsIO.v
theories/Spec_CostsIO.v
theories/Proofs_CostsIO.v
theories/Properties_CostsIO.v
theories/Properties_CostsFiles.v
theories/Properties_CostsFilesCase.v
theories/Model_Plot.v
theories/Spec_Plot.v
theories/Properties_Plot.v
theories/Properties_PlotGrid.v
theories/Model_Summary.v
theories/Spec_Summary.v
theories/Proofs_Summary.v
theories/Properties_Summary.v
theories/Properties_SummaryMore.v
theories/Properties_SummaryLimits.v
theories/Model_UQ.v
theories/Spec_UQ.v
theories/Properties_UQ.v
theories/Properties_UQMore.v
theories/Model_BOPOpts.v
theories/Spec_BOPOpts.v
theories/Properties_BOPOpts.v
theories/Model_KernelArgs.v
theories/Spec_KernelArgs.v
theories/Properties_KernelArgs.v
theories/Model_HavokPlot.v
theories/Spec_HavokPlot.v
theories/Properties_HavokPlot.v
theories/Model_CostsPlot.v
theories/Spec_CostsPlot.v
theories/Properties_CostsPlot.v
theories/Model_MrCostsPlot.v
theories/Spec_MrCostsPlot.v
theories/Properties_MrCostsPlot.v
theories/Model_Freq.v
theories/Spec_Freq.v
theories/Properties_Freq.v
theories/Properties_FitXY.v
theories/Properties_PairAmp.v
