-Q theories Verif
theories/Base.v
theories/TreeSpec.v
theories/Spec.v
theories/M_Tree.v
theories/L_Base.v
theories/L_Tree.v
theories/L_TreeModel.v
theories/L_TreeModel2.v
theories/L_Dist.v
theories/M_Gamma.v
theories/L_Gamma.v
theories/L_Gamma2.v
theories/L_PropsTree.v
theories/Props_Tree.v
theories/Props_Gamma.v
theories/M_Prox.v
theories/M_Grad.v
theories/M_Sgd.v
theories/M_Levels.v
theories/M_Smooth.v
theories/L_Prox.v
theories/L_Sgd.v
theories/L_Grad.v
theories/L_Sgd2.v
theories/Props_Sgd.v
theories/L_Levels.v
theories/L_Smooth.v
theories/SpecSmooth.v
theories/L_Smooth2.v
theories/L_Smooth3.v
theories/L_Smooth4.v
theories/Props_Smooth.v
theories/L_Route.v
theories/SpecTune.v
theories/L_Tune.v
theories/Props_Tune.v
theories/M_Prune.v
theories/SpecPrune.v
theories/L_Prune.v
theories/L_Prune2.v
theories/L_Prune3.v
theories/L_Prune4.v
theories/Props_Prune.v
theories/M_Depth.v
theories/SpecDepth.v
theories/L_Depth.v
theories/L_Depth2.v
theories/Props_Depth.v
theories/M_Box.v
theories/SpecBox.v
theories/L_Box.v
theories/Props_Box.v
theories/M_More.v
theories/L_More.v
theories/Props_More.v
theories/M_Clean.v
theories/SpecClean.v
theories/L_Clean.v
theories/L_Clean2.v
theories/L_Clean3.v
theories/M_Float.v
theories/L_Float.v
theories/Props_Clean.v
theories/M_Level.v
theories/SpecLevel.v
theories/L_Level.v
theories/L_Level2.v
theories/L_Level3.v
theories/L_Level4.v
theories/L_Level5.v
theories/L_Level6.v
theories/L_Level7.v
theories/L_Level8.v
theories/L_Level9.v
theories/Props_Level.v
theories/M_Data.v
theories/M_Torch.v
theories/M_Pytorch.v
theories/SpecTorch.v
theories/L_Torch.v
theories/L_Torch2.v
theories/L_Torch3.v
theories/L_Torch4.v
theories/L_Torch5.v
theories/L_Torch6.v
theories/L_Torch7.v
theories/L_Torch8.v
theories/L_Torch9.v
theories/L_Torch10.v
theories/L_Torch11.v
theories/L_Cost.v
theories/SpecData.v
theories/L_Data.v
theories/L_Data2.v
theories/L_Data3.v
theories/M_Oob.v
theories/SpecOob.v
theories/L_Oob.v
theories/M_Null.v
theories/SpecNull.v
theories/L_Null.v
theories/Props_Torch.v
theories/Props_Data.v
theories/Props_Oob.v
theories/Props_Null.v
theories/SpecRel.v
theories/L_Rel.v
theories/L_Rel2.v
theories/L_Rel3.v
theories/Props_Rel.v
theories/L_Rel4.v
theories/L_Rel5.v
theories/Props_Rel2.v
theories/L_Rel6.v
theories/Props_Rel3.v
theories/L_Rel7.v
theories/Props_Rel4.v
theories/SpecProg.v
theories/L_Prog.v
theories/L_Prog2.v
theories/Props_Prog.v
theories/SpecCopy.v
theories/L_Rel8.v
theories/Props_Rel5.v
theories/M_Main.v
theories/SpecMain.v
theories/L_Main.v
theories/L_Main2.v
theories/Props_Main.v
theories/SpecTight.v
theories/L_Tight.v
theories/Props_Tight.v
theories/M_Analysis.v
theories/SpecAnalysis.v
theories/L_Analysis.v
theories/L_Analysis2.v
theories/L_Analysis3.v
theories/Props_Analysis.v
theories/M_Predict.v
theories/SpecPredict.v
theories/L_Predict.v
theories/L_Predict2.v
theories/L_Predict3.v
theories/L_Predict4.v
theories/Props_Predict.v
theories/SpecRel2.v
theories/L_Rel9.v
theories/L_Rel10.v
theories/L_Rel11.v
theories/L_Rel12.v
theories/L_Rel13.v
theories/Props_Rel6.v
theories/L_Rel14.v
theories/Props_Rel7.v
theories/SpecDRel.v
theories/L_DRel.v
theories/Props_DRel.v
theories/M_Prelim.v
theories/SpecPrelim.v
theories/L_Prelim.v
theories/Props_Prelim.v
theories/M_Calls.v
theories/SpecCalls.v
theories/L_Calls.v
theories/Props_Calls.v
theories/SpecQuantile.v
theories/L_Quantile.v
theories/Props_Quantile.v
theories/M_Cmd.v
theories/SpecCmd.v
theories/L_Cmd.v
theories/Props_Cmd.v
theories/L_Cmd2.v
theories/Props_Cmd2.v
theories/M_Job.v
theories/SpecJob.v
theories/L_Job.v
theories/Props_Job.v
theories/M_Bash.v
theories/SpecBash.v
theories/L_Bash.v
theories/Props_Bash.v
theories/SpecTight2.v
theories/L_Tight2.v
theories/Props_Tight2.v
theories/SpecQuestion.v
theories/L_Question.v
theories/Props_Question.v
theories/SpecOobs.v
theories/L_Oobs.v
theories/Props_Oobs.v
theories/L_Tight3.v
theories/Props_Tight3.v
theories/Conform.v
theories/L_Tests.v
theories/Props_Tests.v
theories/SpecAll.v
theories/L_All.v
theories/L_All2.v
theories/L_All3.v
theories/L_All4.v
theories/Props_All.v
theories/M_OldCmp.v
theories/L_OldCmp.v
theories/Props_OldCmp.v
theories/M_Named.v
theories/SpecNamed.v
theories/L_Named.v
theories/Props_Named.v
theories/M_Given.v
theories/L_Given.v
theories/Props_Given.v
theories/M_Start.v
theories/L_Start.v
theories/L_Seeds.v
theories/Props_Start.v
theories/M_FProx.v
theories/L_FProx.v
theories/L_FProx2.v
theories/L_FProx3.v
theories/L_FProx4.v
theories/Props_FProx.v
theories/L_OobF.v
theories/Props_OobF.v
