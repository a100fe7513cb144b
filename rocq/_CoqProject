-Q theories Verif
theories/Base.v
theories/NDArray.v
theories/Model_Util.v
theories/Spec_Util.v
theories/Proofs_Util.v
theories/Properties_Util.v
theories/Model_Fourier.v
theories/Spec_Linalg.v
theories/Proofs_Fourier.v
theories/Model_Linalg.v
theories/Expr_Linalg.v
theories/Proofs_Linalg.v
theories/Properties_Linalg.v
theories/PSD.v
theories/Det.v
theories/Spec_Eig.v
theories/Proofs_Eig.v
theories/Properties_Eig.v
theories/Model_Shur.v
theories/Proofs_Shur.v
theories/Properties_Shur.v
theories/Proofs_Det.v
theories/Model_Interp.v
theories/Spec_Interp.v
theories/Proofs_Sparse.v
theories/Proofs_Interp.v
theories/Proofs_Interp2.v
theories/Proofs_Bicubic.v
theories/Proofs_Assemble.v
theories/Proofs_Autogrid.v
theories/Properties_Interp.v
theories/Model_Kern.v
theories/Spec_Kern.v
theories/Proofs_Kern.v
theories/Proofs_KernPSD.v
theories/Properties_Kern.v
theories/Model_FK.v
theories/Spec_FK.v
theories/Proofs_FK.v
theories/Properties_FK.v
theories/Model_Grid.v
theories/Spec_Grid.v
theories/Proofs_Grid.v
theories/Proofs_Grid2.v
theories/Properties_Grid.v
theories/Model_Lik.v
theories/Spec_Lik.v
theories/Proofs_Lik.v
theories/Proofs_Lik2.v
theories/Proofs_Lik3.v
theories/Proofs_Lik4.v
theories/Proofs_Lik5.v
theories/Properties_Lik.v
theories/Proofs_Lik6.v
theories/Proofs_Lik7.v
theories/Properties_Lik2.v
theories/Spec_GP.v
theories/Proofs_Gen.v
theories/Proofs_Gen2.v
theories/Properties_Gen.v
theories/Properties_GenNum.v
theories/Model_GP.v
theories/Spec_Pred.v
theories/Proofs_Pred.v
theories/Proofs_Pred2.v
theories/Proofs_Pred3.v
theories/Proofs_Pred4.v
theories/Proofs_Init.v
theories/Proofs_Pred5.v
theories/Proofs_Pred6.v
theories/Properties_Pred.v
theories/Model_State.v
theories/Spec_State.v
theories/Proofs_State.v
theories/Proofs_State2.v
theories/Proofs_State3.v
theories/Proofs_State4.v
theories/Proofs_State5.v
theories/Properties_State.v
theories/Spec_Mode.v
theories/Properties_Mode.v
theories/Model_Opt.v
theories/Spec_Opt.v
theories/Proofs_Opt.v
theories/Properties_Opt.v
theories/Model_Prior.v
theories/Spec_Prior.v
theories/Proofs_Prior.v
theories/Proofs_Prior2.v
theories/Proofs_Gauss.v
theories/Proofs_GammaF.v
theories/Properties_Prior.v
theories/Model_Mean.v
theories/Properties_Mean.v
theories/Model_Docs.v
theories/Properties_Docs.v
theories/Model_GPyLMC.v
theories/Properties_GPyLMC.v
theories/Spec_Acc.v
theories/Proofs_Acc.v
theories/Proofs_Acc2.v
theories/Properties_Acc.v
theories/Proofs_Var.v
theories/Proofs_Var2.v
theories/Properties_Var.v
theories/Spec_Ski.v
theories/Proofs_Ski.v
theories/Proofs_Ski2.v
theories/Proofs_Ski3.v
theories/Properties_Ski.v
theories/Spec_Met.v
theories/Proofs_Met.v
theories/Proofs_Met2.v
theories/Properties_Met.v
theories/Spec_Units.v
theories/Proofs_Units.v
theories/Proofs_Units2.v
theories/Proofs_Units3.v
theories/Proofs_Units4.v
theories/Proofs_Units5.v
theories/Properties_Units.v
theories/Model_SetPrior.v
theories/Spec_SetPrior.v
theories/Proofs_SetPrior.v
theories/Properties_SetPrior.v
theories/Model_Testing.v
theories/Spec_Testing.v
theories/Proofs_Testing.v
theories/Properties_Testing.v
theories/Model_Bench.v
theories/Spec_Bench.v
theories/Proofs_Bench.v
theories/Properties_Bench.v
theories/Spec_Order.v
theories/Proofs_Order.v
theories/Proofs_Order2.v
theories/Proofs_Order3.v
theories/Properties_Order.v
theories/Spec_Train.v
theories/Proofs_Train.v
theories/Properties_Train.v
theories/Model_Regex.v
theories/Model_Clean.v
theories/Spec_Clean.v
theories/Proofs_Regex.v
theories/Proofs_Clean.v
theories/Proofs_Loc.v
theories/Properties_Clean.v
theories/Model_Cogp.v
theories/Spec_Cogp.v
theories/Proofs_Cogp.v
theories/Properties_Cogp.v
theories/Model_Table.v
theories/Properties_Table.v
theories/Model_BenchPy.v
theories/Properties_BenchPy.v
theories/Spec_Alike.v
theories/Proofs_Alike.v
theories/Proofs_Alike2.v
theories/Properties_Alike.v
theories/Spec_Depend.v
theories/Proofs_Depend.v
theories/Properties_Depend.v
theories/Spec_Lip.v
theories/Proofs_Lip.v
theories/Proofs_Lip2.v
theories/Properties_Lip.v
theories/Model_Synth.v
theories/Spec_Synth.v
theories/Proofs_Synth.v
theories/Properties_Synth.v
theories/Spec_Far.v
theories/Proofs_Far.v
theories/Properties_Far.v
theories/Spec_Noise.v
theories/Proofs_Noise.v
theories/Properties_Noise.v
theories/Spec_Best.v
theories/Proofs_Best.v
theories/Properties_Best.v
theories/Spec_Chain.v
theories/Proofs_Chain.v
theories/Properties_Chain.v
theories/Spec_Truth.v
theories/Proofs_Truth.v
theories/Properties_Truth.v
theories/Properties_Truth2.v
theories/Model_Report.v
theories/Spec_Report.v
theories/Proofs_Report.v
theories/Properties_Report.v
theories/Properties_Runs.v
theories/Model_Progress.v
theories/Properties_Progress.v
theories/Model_Harness.v
theories/Proofs_MinEig.v
theories/Properties_Harness.v
theories/Spec_Sep.v
theories/Proofs_Sep.v
theories/Properties_Sep.v
theories/Spec_Limit.v
theories/Properties_Limit.v
theories/Model_Heat.v
theories/Spec_Heat.v
theories/Proofs_Heat.v
theories/Properties_Heat.v
theories/Proofs_GradSm.v
theories/Proofs_GradLim.v
theories/Properties_GradLim.v
theories/Proofs_PreLim.v
theories/Properties_PreLim.v
theories/Model_Run.v
theories/Spec_Run.v
theories/Proofs_Run.v
theories/Properties_Run.v
theories/Proofs_Mass.v
theories/Model_Pics.v
theories/Spec_Pics.v
theories/Proofs_Pics.v
theories/Properties_Pics.v
theories/Model_Multi.v
theories/Spec_Multi.v
theories/Properties_Multi.v
theories/Proofs_Quant.v
theories/Spec_Quant.v
theories/Properties_Quant.v
theories/Properties_Dim.v
theories/Model_Settings.v
theories/Properties_Settings.v
theories/Model_Cmp.v
theories/Properties_Cmp.v
theories/Model_GradGrid.v
theories/Properties_GradGrid.v
