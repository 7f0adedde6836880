-Q theories Verif
theories/M_Config.v
theories/L_Config.v
theories/P_Config.v
theories/M_ODELoop.v
theories/L_ODELoop.v
theories/L_ODELoop2.v
theories/P_ODELoop.v
theories/M_RKWrap.v
theories/L_RKWrap.v
theories/L_RKWrap2.v
theories/P_RKWrap.v
theories/M_VdC.v
theories/L_VdC.v
theories/P_VdC.v
theories/M_StopCrit.v
theories/L_StopCrit.v
theories/P_StopCrit.v
theories/M_Args.v
theories/L_Args.v
theories/P_Args.v
theories/M_PLS.v
theories/L_PLS.v
theories/P_PLS.v
theories/M_BQLoop.v
theories/L_BQLoop.v
theories/P_BQLoop.v
theories/L_Zmod.v
theories/M_Gauss.v
theories/L_Kalman.v
theories/L_Filter.v
theories/L_Smooth.v
theories/L_SSMExists.v
theories/L_Psd.v
theories/P_Kalman.v
theories/M_Sqrt.v
theories/L_Sqrt.v
theories/L_QR.v
theories/P_Sqrt.v
theories/M_Sample.v
theories/L_Sample.v
theories/L_Chol.v
theories/P_Sample.v
theories/M_Series.v
theories/L_Series.v
theories/P_Series.v
theories/M_Particle.v
theories/P_Particle.v
theories/M_DMx.v
theories/L_DMx.v
theories/M_LinOps.v
theories/M_LinOps2.v
theories/L_LinOps.v
theories/L_LinOps2.v
theories/L_LinOps3.v
theories/L_LinOps4.v
theories/L_LinOps5.v
theories/L_LinOps6.v
theories/L_LinOps7.v
theories/L_LinOps8.v
theories/L_LinOps9.v
theories/L_LinOps10.v
theories/L_LinOps11.v
theories/L_LinOps12.v
theories/L_LinOps13.v
theories/L_LinOps14.v
theories/L_LinOps15.v
theories/L_LinExp.v
theories/P_LinOps.v
theories/P_LinOps2.v
theories/L_AField.v
theories/M_IWP.v
theories/L_IWP.v
theories/L_IWP2.v
theories/L_IWP3.v
theories/P_IWP.v
theories/P_Callbacks.v
theories/M_Ortho.v
theories/P_Ortho.v
theories/M_LinSolve.v
theories/L_LinSolve.v
theories/L_CG.v
theories/L_CG2.v
theories/L_LinPost.v
theories/P_LinSolve.v
theories/L_Num2.v
theories/M_ODEFilter.v
theories/L_ODEFilter.v
theories/P_ODEFilter.v
theories/L_Ring.v
theories/M_BQ.v
theories/L_BQ.v
theories/L_BQ2.v
theories/P_BQ.v
theories/M_MatUpd.v
theories/L_MatUpd.v
theories/P_MatUpd.v
theories/M_MBS.v
theories/L_MBS.v
theories/P_MBS.v
theories/P_MBSRun.v
theories/M_Functions.v
theories/P_Functions.v
theories/M_CovFunc.v
theories/L_CovFunc.v
theories/P_CovFunc.v
theories/M_Kernels.v
theories/P_Kernels.v
theories/P_KernPSD.v
theories/P_KernBad.v
theories/M_UnitVec.v
theories/P_UnitVec.v
theories/M_Unscented.v
theories/P_Unscented.v
theories/M_RandVar.v
theories/L_RandVar.v
theories/L_RandVar2.v
theories/P_RandVar.v
theories/P_RandVar2.v
theories/P_RandVar3.v
theories/M_RandView.v
theories/P_RandView.v
theories/L_RStruct.v
theories/L_Expm.v
theories/M_LTISDE.v
theories/P_LTISDE.v
theories/L_Int1.v
theories/L_GaussMx.v
theories/M_Embed.v
theories/L_Embed.v
theories/P_Embed.v
theories/L_Mix.v
theories/P_KernR.v
theories/M_Zoo.v
theories/L_ZooInt.v
theories/L_Zoo.v
theories/P_Zoo.v
theories/M_Integ.v
theories/L_Integ.v
theories/P_Integ.v
theories/M_IVPZoo.v
theories/P_IVPZoo.v
theories/M_SSZoo.v
theories/P_SSZoo.v
theories/M_OdeInit.v
theories/L_OdeInit.v
theories/P_OdeInit.v
theories/M_BQInfo.v
theories/P_BQInfo.v
theories/M_LinMisc.v
theories/P_LinMisc.v
