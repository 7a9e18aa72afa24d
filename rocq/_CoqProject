-Q theories Verif
theories/ArgLemmas.v
theories/B64Err.v
theories/B64Lemmas.v
theories/Base.v
theories/BaseLemmas.v
theories/CalcR.v
theories/Euclid.v
theories/Linalg.v
theories/LinalgR.v
theories/MatR.v
theories/Model_CG.v
theories/Model_Confusion.v
theories/Model_Cost.v
theories/Model_CrossVal.v
theories/Model_DBSCAN.v
theories/Model_Datasets.v
theories/Model_Dist.v
theories/Model_GLM.v
theories/Model_GLMUser.v
theories/Model_GMM.v
theories/Model_GP.v
theories/Model_History.v
theories/Model_KMeans.v
theories/Model_KNN.v
theories/Model_Kernel.v
theories/Model_NNet.v
theories/Model_NaiveBayes.v
theories/Model_Optim.v
theories/Model_PCA.v
theories/Model_Rand.v
theories/Model_Regression.v
theories/Model_SVM.v
theories/Model_Score.v
theories/Model_Toolkit.v
theories/Model_Transforms.v
theories/Model_Unsafe.v
theories/Num.v
theories/NumF.v
theories/NumFn.v
theories/NumOrd.v
theories/NumSign.v
theories/NumX.v
theories/Proof_Agree.v
theories/Proof_AgreeGLM.v
theories/Proof_AgreeGP.v
theories/Proof_AgreeKM.v
theories/Proof_B64Ex.v
theories/Proof_Batch.v
theories/Proof_Between.v
theories/Proof_BetweenEx.v
theories/Proof_CG.v
theories/Proof_CG2.v
theories/Proof_CG3.v
theories/Proof_CG3Ex.v
theories/Proof_CGEx.v
theories/Proof_Calib.v
theories/Proof_CalibEx.v
theories/Proof_Cdf.v
theories/Proof_CellB64.v
theories/Proof_Confusion.v
theories/Proof_Constant.v
theories/Proof_Converge.v
theories/Proof_Converge2.v
theories/Proof_Cost.v
theories/Proof_Cross.v
theories/Proof_CrossNet.v
theories/Proof_CrossVal.v
theories/Proof_DBEnds.v
theories/Proof_DBMore.v
theories/Proof_DBSCAN.v
theories/Proof_DBSCAN2.v
theories/Proof_DBSCANEx.v
theories/Proof_Datasets.v
theories/Proof_Datasets2.v
theories/Proof_Det.v
theories/Proof_Dist.v
theories/Proof_DistB64.v
theories/Proof_DistEx.v
theories/Proof_DistMass.v
theories/Proof_EM.v
theories/Proof_EM2.v
theories/Proof_Equiv.v
theories/Proof_EquivEx.v
theories/Proof_ErrB64.v
theories/Proof_Errors.v
theories/Proof_Far.v
theories/Proof_FarKer.v
theories/Proof_Farkas.v
theories/Proof_Feature.v
theories/Proof_FeatureEx.v
theories/Proof_Flat.v
theories/Proof_Flip.v
theories/Proof_Flip2.v
theories/Proof_Flip3.v
theories/Proof_FoldLaw.v
theories/Proof_FoldLawEx.v
theories/Proof_GDRate.v
theories/Proof_GDRateEx.v
theories/Proof_GLM.v
theories/Proof_GLM2.v
theories/Proof_GLMClip.v
theories/Proof_GLMEx.v
theories/Proof_GLMFrame.v
theories/Proof_GLMFrameEx.v
theories/Proof_GLMUser.v
theories/Proof_GMM.v
theories/Proof_GMM2.v
theories/Proof_GMM3.v
theories/Proof_GMM4.v
theories/Proof_GMM5.v
theories/Proof_GMMEx.v
theories/Proof_GMMFrame.v
theories/Proof_GMMFrame2.v
theories/Proof_GMMFrameEx.v
theories/Proof_GP.v
theories/Proof_GPCopies.v
theories/Proof_GPCopiesEx.v
theories/Proof_GPErr.v
theories/Proof_GPEx.v
theories/Proof_GPMono.v
theories/Proof_GPMonoEx.v
theories/Proof_GPPost.v
theories/Proof_GPRidge.v
theories/Proof_GPRidgeEx.v
theories/Proof_Gaps.v
theories/Proof_GaussInt.v
theories/Proof_GeomEx.v
theories/Proof_Glorot.v
theories/Proof_History.v
theories/Proof_HistoryEx.v
theories/Proof_Inverse.v
theories/Proof_Join.v
theories/Proof_KMCost.v
theories/Proof_KMCostEx.v
theories/Proof_KMFair.v
theories/Proof_KMInv.v
theories/Proof_KMInvEx.v
theories/Proof_KMStop.v
theories/Proof_KMeans.v
theories/Proof_KMeans2.v
theories/Proof_KMeans3.v
theories/Proof_KMeansEx.v
theories/Proof_KNN2.v
theories/Proof_KNNEx.v
theories/Proof_KNNMore.v
theories/Proof_KNNMoreEx.v
theories/Proof_KNNTrain.v
theories/Proof_KNNVote.v
theories/Proof_KNearest.v
theories/Proof_KPP.v
theories/Proof_KPPErr.v
theories/Proof_KPPEx.v
theories/Proof_KPPMath.v
theories/Proof_KerInv.v
theories/Proof_Kernel.v
theories/Proof_Kernel2.v
theories/Proof_KernelB64.v
theories/Proof_LSStats.v
theories/Proof_LSStats2.v
theories/Proof_LSStatsEx.v
theories/Proof_Metric.v
theories/Proof_MinMax.v
theories/Proof_Minimiser.v
theories/Proof_Modes.v
theories/Proof_ModesEx.v
theories/Proof_NBFit.v
theories/Proof_NBFit2.v
theories/Proof_NBInv.v
theories/Proof_NBInvEx.v
theories/Proof_NBLonely.v
theories/Proof_NBUpdate.v
theories/Proof_NNet.v
theories/Proof_NNet2.v
theories/Proof_NNet3.v
theories/Proof_NNet4.v
theories/Proof_NNet5.v
theories/Proof_NNetEx.v
theories/Proof_NNetSym.v
theories/Proof_NNetSym2.v
theories/Proof_NNetSym3.v
theories/Proof_NaN.v
theories/Proof_NaNBayes.v
theories/Proof_NaNBayesEx.v
theories/Proof_NaNEx.v
theories/Proof_NaNQuery.v
theories/Proof_NaNReg.v
theories/Proof_NaNRegEx.v
theories/Proof_NaNSVM.v
theories/Proof_NaNSVMEx.v
theories/Proof_NaiveBayes.v
theories/Proof_NaiveBayes2.v
theories/Proof_NaiveBayesEx.v
theories/Proof_NaiveBayesMAP.v
theories/Proof_NaiveBayesX.v
theories/Proof_NetSum.v
theories/Proof_New.v
theories/Proof_NormB64.v
theories/Proof_OptEq.v
theories/Proof_OptEq2.v
theories/Proof_OptEqEx.v
theories/Proof_Optim.v
theories/Proof_Optim2.v
theories/Proof_OptimEx.v
theories/Proof_Oracles.v
theories/Proof_Order.v
theories/Proof_Order2.v
theories/Proof_Order3.v
theories/Proof_Overlap.v
theories/Proof_OverlapEx.v
theories/Proof_OwnRows.v
theories/Proof_PCA.v
theories/Proof_PCA2.v
theories/Proof_PCABest.v
theories/Proof_PCAEx.v
theories/Proof_PSD.v
theories/Proof_PSD2.v
theories/Proof_Pipeline.v
theories/Proof_Pipeline2.v
theories/Proof_PipelineEx.v
theories/Proof_Rand.v
theories/Proof_Rand2.v
theories/Proof_Regression.v
theories/Proof_Regression2.v
theories/Proof_RegressionEx.v
theories/Proof_Regret.v
theories/Proof_RegretEx.v
theories/Proof_Repeat.v
theories/Proof_SVM.v
theories/Proof_SVM2.v
theories/Proof_SVMEx.v
theories/Proof_Sampling.v
theories/Proof_Score.v
theories/Proof_ScoreB64.v
theories/Proof_Scores2.v
theories/Proof_Separable.v
theories/Proof_SigB64.v
theories/Proof_SigB64Ex.v
theories/Proof_Similar.v
theories/Proof_Single.v
theories/Proof_SingleEx.v
theories/Proof_Small.v
theories/Proof_SmallEx.v
theories/Proof_Spectral.v
theories/Proof_Standardize.v
theories/Proof_Succeeds.v
theories/Proof_Succeeds2.v
theories/Proof_Succeeds3.v
theories/Proof_SucceedsEx.v
theories/Proof_Swap.v
theories/Proof_SwapEx.v
theories/Proof_SwapSVM.v
theories/Proof_Toolkit.v
theories/Proof_TransformsB64.v
theories/Proof_TransformsB64Ex.v
theories/Proof_TransformsEx.v
theories/Proof_Tree.v
theories/Proof_TreeBall.v
theories/Proof_TreeDepth.v
theories/Proof_TreeKD.v
theories/Proof_TreeTerm.v
theories/Proof_Units.v
theories/Proof_UnitsEx.v
theories/Proof_Unsafe.v
theories/Proof_Unsafe2.v
theories/Proof_UnsafeEx.v
theories/Props_Agree.v
theories/Props_B64.v
theories/Props_Batch.v
theories/Props_Between.v
theories/Props_CG.v
theories/Props_CG2.v
theories/Props_Calib.v
theories/Props_Confusion.v
theories/Props_Constant.v
theories/Props_Cost.v
theories/Props_Cross.v
theories/Props_CrossVal.v
theories/Props_DBEnds.v
theories/Props_DBMore.v
theories/Props_DBSCAN.v
theories/Props_Datasets.v
theories/Props_Dist.v
theories/Props_DistMass.v
theories/Props_Equiv.v
theories/Props_Errors.v
theories/Props_Far.v
theories/Props_Feature.v
theories/Props_Flat.v
theories/Props_Flip.v
theories/Props_FoldLaw.v
theories/Props_GDRate.v
theories/Props_GLM.v
theories/Props_GLMFrame.v
theories/Props_GLMUser.v
theories/Props_GMM.v
theories/Props_GMMFrame.v
theories/Props_GP.v
theories/Props_GPCopies.v
theories/Props_GPMono.v
theories/Props_GPRidge.v
theories/Props_Geometry.v
theories/Props_Glorot.v
theories/Props_History.v
theories/Props_Join.v
theories/Props_KMCost.v
theories/Props_KMFair.v
theories/Props_KMInv.v
theories/Props_KMeans.v
theories/Props_KNN.v
theories/Props_KNNMore.v
theories/Props_KNNTrain.v
theories/Props_KPP.v
theories/Props_KerInv.v
theories/Props_Kernel.v
theories/Props_LSStats.v
theories/Props_Metric.v
theories/Props_Modes.v
theories/Props_NBFit.v
theories/Props_NBInv.v
theories/Props_NBLonely.v
theories/Props_NBUpdate.v
theories/Props_NNet.v
theories/Props_NNetSym.v
theories/Props_NaN.v
theories/Props_NaNReg.v
theories/Props_NaNSVM.v
theories/Props_NaiveBayes.v
theories/Props_NetSum.v
theories/Props_New.v
theories/Props_OptEq.v
theories/Props_Optim.v
theories/Props_Order.v
theories/Props_Overlap.v
theories/Props_OwnRows.v
theories/Props_PCA.v
theories/Props_PCABest.v
theories/Props_Pipeline.v
theories/Props_Rand.v
theories/Props_Regression.v
theories/Props_Regret.v
theories/Props_Repeat.v
theories/Props_SVM.v
theories/Props_Sampling.v
theories/Props_Score.v
theories/Props_Scores2.v
theories/Props_Separable.v
theories/Props_SigB64.v
theories/Props_Single.v
theories/Props_Small.v
theories/Props_Succeeds.v
theories/Props_Succeeds2.v
theories/Props_Swap.v
theories/Props_Toolkit.v
theories/Props_Transforms.v
theories/Props_TransformsB64.v
theories/Props_TreeDepth.v
theories/Props_Units.v
theories/Props_Unsafe.v
theories/RealBounds.v
theories/Spec_Agree.v
theories/Spec_B64.v
theories/Spec_Batch.v
theories/Spec_Between.v
theories/Spec_CG.v
theories/Spec_CG2.v
theories/Spec_Calc.v
theories/Spec_Calib.v
theories/Spec_Confusion.v
theories/Spec_Cost.v
theories/Spec_Cross.v
theories/Spec_CrossVal.v
theories/Spec_DBMore.v
theories/Spec_DBSCAN.v
theories/Spec_DBSCAN2.v
theories/Spec_Datasets.v
theories/Spec_Dist.v
theories/Spec_Equiv.v
theories/Spec_Errors.v
theories/Spec_Far.v
theories/Spec_Feature.v
theories/Spec_Flip.v
theories/Spec_FoldLaw.v
theories/Spec_GDRate.v
theories/Spec_GLM.v
theories/Spec_GLMFrame.v
theories/Spec_GLMUser.v
theories/Spec_GMM.v
theories/Spec_GMMFrame.v
theories/Spec_GP.v
theories/Spec_GPCopies.v
theories/Spec_GPRidge.v
theories/Spec_Glorot.v
theories/Spec_History.v
theories/Spec_KMCost.v
theories/Spec_KMFair.v
theories/Spec_KMInv.v
theories/Spec_KMStop.v
theories/Spec_KMeans.v
theories/Spec_KNN.v
theories/Spec_KNN2.v
theories/Spec_KNNMore.v
theories/Spec_KPP.v
theories/Spec_KerInv.v
theories/Spec_Kernel.v
theories/Spec_LSStats.v
theories/Spec_Metric.v
theories/Spec_Modes.v
theories/Spec_NBFit.v
theories/Spec_NBInv.v
theories/Spec_NBUpdate.v
theories/Spec_NNet.v
theories/Spec_NNetSym.v
theories/Spec_NaN.v
theories/Spec_NaNReg.v
theories/Spec_NaNSVM.v
theories/Spec_NaiveBayes.v
theories/Spec_NetSum.v
theories/Spec_New.v
theories/Spec_OptEq.v
theories/Spec_Optim.v
theories/Spec_Order.v
theories/Spec_Overlap.v
theories/Spec_PCA.v
theories/Spec_PCABest.v
theories/Spec_Pipeline.v
theories/Spec_Regression.v
theories/Spec_Regret.v
theories/Spec_SVM.v
theories/Spec_Score.v
theories/Spec_Scores2.v
theories/Spec_Separable.v
theories/Spec_SigB64.v
theories/Spec_Single.v
theories/Spec_Small.v
theories/Spec_Succeeds.v
theories/Spec_Succeeds2.v
theories/Spec_Swap.v
theories/Spec_Toolkit.v
theories/Spec_Transforms.v
theories/Spec_TransformsB64.v
theories/Spec_TreeDepth.v
theories/Spec_Units.v
theories/Spec_Unsafe.v
