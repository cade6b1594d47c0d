-Q theories Verif
theories/Calc.v
theories/RStruct.v
theories/RTac.v
theories/Spectral.v
theories/S_Mat.v
theories/RMx.v
theories/LinTac.v
theories/ADMM.v
theories/NP.v
theories/Str.v
theories/M_Prox.v
theories/S_Prox.v
theories/P_Eigh.v
theories/P_Prox.v
theories/P_Prox2.v
theories/P_Prox3.v
theories/P_Rules.v
theories/M_Loop.v
theories/P_Loop.v
theories/M_GL.v
theories/S_GL.v
theories/P_GL.v
theories/P_GL2.v
theories/M_LGL.v
theories/S_LGL.v
theories/P_LGL.v
theories/M_TGL.v
theories/S_TGL.v
theories/P_TGL.v
theories/P_TGL2.v
theories/P_Admm.v
theories/P_TGL3.v
theories/HB.v
theories/P_TGL4.v
theories/P_TGL5.v
theories/M_KTGL.v
theories/S_KTGL.v
theories/P_KTGL.v
theories/P_KTGL2.v
theories/P_KTGL3.v
theories/P_KTGL4.v
theories/P_KTGL5.v
theories/M_LTGL.v
theories/M_KLTGL.v
theories/S_LTGL.v
theories/P_LatCore.v
theories/P_Lat2.v
theories/P_LTGL.v
theories/P_KLTGL.v
theories/M_Utils.v
theories/S_Utils.v
theories/P_Utils.v
theories/P_Utils2.v
theories/M_Scores.v
theories/P_Scores.v
theories/M_Stab.v
theories/P_Stab.v
theories/P_Stab2.v
theories/P_Stab3.v
theories/M_Fit.v
theories/S_Fit.v
theories/P_Fit.v
theories/P_Rescale.v
theories/M_GLM.v
theories/S_GLM.v
theories/P_GLM.v
theories/P_GLM2.v
theories/P_GLM3.v
theories/P_GLM4.v
theories/P_GLM5.v
theories/M_TimeGLM.v
theories/P_TimeGLM.v
theories/M_Wishart.v
theories/P_Wishart.v
theories/M_Sampling.v
theories/P_Sampling.v
theories/P_Sampling2.v
theories/M_GWishart.v
theories/P_GWishart.v
theories/BW.v
theories/Exist.v
theories/M_Linear.v
theories/S_Linear.v
theories/P_Linear.v
theories/P_Linear2.v
theories/P_Linear3.v
theories/P_Linear4.v
theories/P_Linear5.v
theories/P_Exist.v
theories/P_Exist2.v
theories/P_Linear6.v
theories/P_Linear7.v
theories/M_FB.v
theories/S_FB.v
theories/P_FB.v
theories/P_FB2.v
theories/P_FB3.v
theories/P_FB4.v
theories/P_FB5.v
theories/P_FB6.v
theories/P_FB7.v
theories/P_FB8.v
theories/M_Ising.v
theories/S_Prob.v
theories/S_Ising.v
theories/P_Prob.v
theories/P_Ising.v
theories/P_Ising2.v
theories/P_Ising3.v
theories/P_Ising4.v
theories/P_Ising5.v
theories/P_Ising6.v
theories/P_Ising7.v
theories/M_Poisson.v
theories/P_Poisson.v
theories/M_Gauss.v
theories/P_Gauss.v
theories/P_Gauss2.v
theories/P_Gauss3.v
theories/P_Gauss4.v
theories/P_Gauss5.v
theories/P_Gauss6.v
theories/P_Gauss7.v
theories/M_Node.v
theories/P_Node.v
theories/M_Infimal.v
theories/P_Infimal.v
theories/T_Prox.v
theories/T_GL.v
theories/T_LGL.v
theories/T_TGL.v
theories/T_KTGL.v
theories/T_LTGL.v
theories/T_Fit.v
theories/T_GLM.v
theories/T_TimeGLM.v
theories/T_Wishart.v
theories/T_Sampling.v
theories/T_GWishart.v
theories/T_Stop.v
theories/T_Exist.v
theories/T_Linear.v
theories/T_FB.v
theories/T_FB2.v
theories/T_FB3.v
theories/T_FB4.v
theories/T_Ising.v
theories/T_Poisson.v
theories/T_Gauss.v
theories/T_Utils.v
theories/T_Scores.v
theories/T_Stab.v
theories/T_Node.v
theories/T_Infimal.v
theories/M_Missing.v
theories/P_Missing.v
theories/T_Missing.v
theories/M_Dataset.v
theories/P_Dataset.v
theories/P_Fede.v
theories/T_Dataset.v
theories/Gauss1.v
theories/T_TimeGLM2.v
theories/T_Stats.v
theories/T_Tight.v
theories/M_KernelFit.v
theories/P_KernelFit.v
theories/T_KernelFit.v
theories/T_KernelFit2.v
theories/M_Network.v
theories/P_Network.v
theories/T_Network.v
theories/M_Tools.v
theories/T_Tools.v
theories/T_Tools2.v
theories/M_Validation.v
theories/T_Validation.v
theories/M_KMeans.v
theories/T_KMeans.v
theories/M_Discr.v
theories/T_Discr.v
theories/M_GLOFit.v
theories/T_GLOFit.v
theories/P_GaussMY.v
theories/M_Glopridu.v
theories/P_Glopridu.v
theories/P_Glopridu2.v
theories/P_Glopridu3.v
theories/T_Glopridu.v
theories/T_Tight2.v
theories/M_ClusterRep.v
theories/P_ClusterRep.v
theories/P_ClusterRep2.v
theories/P_ClusterRep3.v
theories/T_ClusterRep.v
theories/M_Ticc.v
theories/P_Ticc.v
theories/P_Ticc2.v
theories/P_Ticc3.v
theories/T_Ticc.v
theories/P_Node2.v
theories/M_StabFit.v
theories/S_StabFit.v
theories/P_StabFit.v
theories/P_StabFit2.v
theories/T_StabFit.v
theories/M_MYLatent.v
theories/P_MYLatent.v
theories/P_MYLatent2.v
theories/P_MYLatent3.v
theories/T_MYLatent.v
theories/M_Linf.v
theories/S_Linf.v
theories/P_Linf.v
theories/T_Linf.v
theories/M_CovPlot.v
theories/P_CovPlot.v
theories/T_CovPlot.v
theories/M_Bezier.v
theories/P_Bezier.v
theories/T_Bezier.v
theories/M_Files.v
theories/T_Files.v
theories/M_Laplace2.v
theories/T_Laplace2.v
theories/T_Tight0.v
theories/M_OldGLO.v
theories/P_OldGLO.v
theories/T_OldGLO.v
theories/M_NIW.v
theories/T_NIW.v
theories/M_WKernel.v
theories/P_WKernel.v
theories/T_WKernel.v
theories/M_WriteNet.v
theories/T_WriteNet.v
theories/M_Roc.v
theories/T_Roc.v
theories/M_BayesOpt.v
theories/T_BayesOpt.v
theories/T_Tight3.v
theories/M_PlotNet.v
theories/T_PlotNet.v
theories/M_Circular.v
theories/T_Circular.v
theories/T_MYLatent2.v
theories/M_PlotCurve.v
theories/T_PlotCurve.v
theories/P_Screen.v
theories/T_Screen.v
theories/T_Screen2.v
theories/T_Screen3.v
theories/T_Tight4.v
theories/M_GWPrior.v
theories/T_GWPrior.v
theories/T_PlotCurve2.v
theories/M_GWGL.v
theories/T_GWGL.v
theories/M_Display.v
theories/T_Display.v
theories/M_BGL.v
theories/T_BGL.v
theories/M_Width.v
theories/T_Width.v
theories/M_ScoreBl.v
theories/T_ScoreBl.v
theories/M_Deprecated.v
theories/T_Deprecated.v
theories/M_Ctor.v
theories/T_Ctor.v
