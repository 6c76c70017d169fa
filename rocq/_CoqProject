-Q theories Verif
theories/Base.v
theories/Scalars.v
theories/Tensor.v
theories/Utils2.v
theories/MpsBase.v
theories/Embeddings.v
theories/ProbMps.v
theories/Spec.v
theories/LinAlg.v
theories/Utils2Proofs.v
theories/MatseqProofs.v
theories/ParProofs.v
theories/MatSpec.v
theories/MatTop.v
theories/MatFinal.v
theories/EinsumProofs.v
theories/SlimProofs.v
theories/LogNorm.v
theories/ModelSpec.v
theories/ProbProofs.v
theories/EmbSpec.v
theories/EmbProofs.v
theories/P_Matseq.v
theories/P_Utils2.v
theories/P_MpsBase.v
theories/P_Prob.v
theories/P_Emb.v
theories/P_Emb2.v
theories/NnModule.v
theories/P_Module.v
theories/P_Emb3.v
theories/Contractables.v
theories/ContrSpec.v
theories/ContrProofs.v
theories/ContrReduce.v
theories/P_Contr.v
theories/Utils.v
theories/UtilsSpec.v
theories/UtilsProofs.v
theories/HVProofs.v
theories/P_Utils.v
theories/SvdProofs.v
theories/SvdFinal.v
theories/P_Svd.v
theories/TorchMps.v
theories/TmSpec.v
theories/TmProofs.v
theories/TmFinal.v
theories/TmStale.v
theories/P_Mps.v
theories/P_Mps2.v
theories/P_Mps3.v
theories/P_Mps4.v
theories/P_TiMps.v
theories/Adaptive.v
theories/AdMerge.v
theories/AdSweep.v
theories/AdKinds.v
theories/AdSplit.v
theories/AdSpec.v
theories/AdUnmerge.v
theories/AdEqual.v
theories/AdFlip.v
theories/AdState.v
theories/AdCall.v
theories/AdHealthy.v
theories/P_Ad.v
theories/P_AdNorm.v
theories/P_AdEx.v
theories/ProbInit.v
theories/P_Sym.v
theories/P_Init.v
theories/P_EmbExact.v
theories/AdExact.v
theories/P_AdExact.v
theories/Crash.v
theories/AdCrash.v
theories/P_Crash.v
theories/P_Sym2.v
theories/P_Onehot.v
theories/P_MpsSym.v
theories/P_MpsSym2.v
theories/P_TiSym.v
theories/P_ZeroExact.v
theories/InputSpec.v
theories/P_AnyInput.v
theories/TrainScript.v
theories/TrainSpec.v
theories/P_Train.v
theories/P_AnyEmb.v
theories/Param.v
theories/EinStr.v
theories/ParamMul.v
theories/ParamRed.v
theories/ParamFwd.v
theories/ParamMps.v
theories/FloatSpec.v
theories/Float.v
theories/P_Float.v
theories/P_FloatEx.v
theories/P_Free.v
theories/TrainAd.v
theories/TrainAdSpec.v
theories/P_AdUnit.v
theories/P_TrainAd.v
theories/Mlp.v
theories/P_Mlp.v
theories/NabsTri.v
theories/Stable.v
theories/Stable2.v
theories/P_Stable.v
theories/P_InitExact.v
theories/P_CtorExact.v
theories/Quad.v
theories/P_Quad.v
theories/P_Gibbs.v
theories/P_Grad.v
theories/FrobNorm.v
theories/P_Trunc.v
theories/P_TruncEx.v
theories/StateDict.v
theories/StateProofs.v
theories/P_State.v
theories/P_AdLin.v
theories/P_StateStrict.v
theories/P_Descent.v
theories/P_Capacity.v
theories/P_MpsCap.v
theories/P_TiCap.v
theories/P_Larger.v
theories/P_Super.v
theories/P_Bridge.v
theories/P_Product.v
theories/P_Perturb.v
theories/P_EmbSuper.v
theories/P_ProbCont.v
