-Q theories Verif
theories/Num.v
theories/Constants.v
theories/Subproblem.v
theories/HessApprox.v
theories/Steps.v
theories/TrustRegion.v
theories/Minimize.v
theories/ER.v
theories/F64.v
theories/NumFacts.v
theories/MonadFacts.v
theories/MinFacts.v
theories/Spec.v
theories/Run.v
theories/RunInv.v
theories/Witness.v
theories/TRErr.v
theories/RunFrame.v
theories/Prop_Run.v
theories/Prop_Run2.v
theories/Prop_Reject.v
theories/Prop_RunEx.v
theories/Prop_Options.v
theories/RVec.v
theories/Quasi.v
theories/HessRun.v
theories/Prop_Sym.v
theories/Prop_Quasi.v
theories/Prop_Quasi2.v
theories/Prop_Sub1d.v
theories/Ortho.v
theories/Argmin.v
theories/SubNd.v
theories/Prop_SubNd.v
theories/Prop_Secular.v
theories/Cand.v
theories/StepFacts.v
theories/Prop_Cand.v
theories/RShess.v
theories/Prop_Pred.v
theories/Prop_StepFind.v
theories/Prop_Strategy.v
theories/HessDim.v
theories/Prop_Box.v
theories/Prop_Nudge.v
theories/Prop_BoxRun.v
theories/Prop_BoxRun2.v
theories/WitnessER.v
theories/Prop_LSQ.v
theories/RealStep.v
theories/Prop_Grad.v
theories/GradEx.v
theories/Region.v
theories/Prop_SubNd2.v
theories/Prop_Trunc.v
theories/Prop_CG.v
theories/Prop_Stepback.v
theories/Prop_TwoD.v
theories/Prop_Region.v
theories/Prop_Reflect.v
theories/Logging.v
theories/Prop_Logging.v
theories/Prop_Reuse.v
theories/Prop_BoxF64.v
theories/Prop_BoxReflect.v
theories/Prop_ScgHang.v
theories/Prop_BoxTrunc.v
theories/Prop_Update.v
theories/LogTable.v
theories/Prop_LogTable.v
theories/Prop_QuasiRun.v
theories/Unbounded.v
theories/UnboundedFull.v
theories/Unbounded2D.v
theories/Converge.v
theories/Prop_Converge.v
theories/Prop_Converge2.v
theories/BoundedGrad.v
theories/BoundedStep.v
theories/Prop_ConvergeBox.v
theories/Prop_ConvergeBox2.v
theories/Prop_ConvergeBoxEx.v
theories/Prop_Quadratic.v
theories/Prop_Unbounded.v
theories/Prop_Observers.v
theories/Prop_Start.v
theories/Prop_SR1.v
theories/Prop_SR1Ex.v
theories/Prop_Local.v
theories/Prop_Stopping.v
theories/Prop_History.v
theories/Prop_UpdatesRun.v
theories/Prop_Terminates.v
theories/StatStep.v
theories/Prop_Stationary.v
theories/Translate.v
theories/Prop_Translate.v
theories/Prop_TranslateEx.v
theories/Saddle.v
theories/Prop_Saddle.v
theories/Newton.v
theories/Prop_Newton.v
theories/Prop_IntStart.v
theories/Prop_Hybrid.v
theories/Prop_StructRun.v
theories/Prop_Refine.v
theories/Prop_RefineEx.v
theories/Prop_HessString.v
theories/Prop_Stops.v
theories/Prop_StopsEx.v
theories/Prop_ExactStart.v
theories/Prop_ExactQuad.v
theories/Prop_ExactRun.v
theories/Prop_ExactSR1.v
theories/Prop_Textbook.v
theories/Prop_LeastChange.v
theories/Prop_SecantRun.v
theories/Prop_TruncRegion.v
theories/Prop_TruncFull.v
theories/Prop_TruncModel.v
theories/Prop_TruncModelEx.v
