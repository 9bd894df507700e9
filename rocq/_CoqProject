-Q theories Verif
theories/Lib_Ring.v
theories/Lib_Res.v
theories/MatrixStack_Model.v
theories/MatrixStack_Spec.v
theories/MatrixStack_Proofs.v
theories/MatrixStack_Props.v
theories/DesignVar_Base.v
theories/Jacobian_Model.v
theories/Jacobian_Spec.v
theories/Jacobian_Proofs.v
theories/Jacobian_Proofs2.v
theories/Jacobian_Proofs3.v
theories/Jacobian_Props.v
theories/Threads_Model.v
theories/Threads_Proofs.v
theories/Threads_Proofs2.v
theories/Threads_Proofs3.v
theories/Threads_Proofs4.v
theories/Threads_Props.v
theories/Problem_Model.v
theories/Problem_Spec.v
theories/Problem_Proofs.v
theories/Problem_Props.v
theories/Layout_Model.v
theories/Layout_Spec.v
theories/Layout_Proofs.v
theories/Layout_Props.v
theories/DV_Model.v
theories/DV_Spec.v
theories/DV_Proofs.v
theories/DV_Props.v
theories/Lib_Real.v
theories/Errors_Model.v
theories/Errors_Spec.v
theories/Errors_SpecR.v
theories/Errors_Proofs.v
theories/Errors_ProofsR.v
theories/MEstimator_Model.v
theories/MEstimator_Spec.v
theories/MEstimator_Proofs.v
theories/Errors_Props.v
theories/Lib_Float.v
theories/Optimizer2_Model.v
theories/Optimizer2_Spec.v
theories/Optimizer2_Proofs.v
theories/Optimizer2_Toy.v
theories/Optimizer2_Props.v
theories/Policy_Model.v
theories/Policy_Spec.v
theories/Policy_Proofs.v
theories/Policy_Proofs2.v
theories/Policy_Proofs3.v
theories/Policy_Proofs4.v
theories/Policy_Props.v
theories/Callback_Model.v
theories/Callback_Spec.v
theories/Callback_Proofs.v
theories/Callback_Props.v
theories/Optimizer1_Model.v
theories/Optimizer1_Spec.v
theories/Optimizer1_Proofs.v
theories/Optimizer1_Damp.v
theories/Optimizer1_Toy.v
theories/Optimizer1_Props.v
theories/Lib_Num.v
theories/LineSearch_Model.v
theories/LineSearch_Spec.v
theories/LineSearch_Proofs.v
theories/LineSearch_ProofsR.v
theories/LineSearch_ProofsB.v
theories/LineSearch_ProofsC.v
theories/LineSearch_Toy.v
theories/LineSearch_ToyR.v
theories/LineSearch_Props.v
theories/BFGS_Model.v
theories/BFGS_Spec.v
theories/BFGS_Proofs.v
theories/BFGS_Toy.v
theories/BFGS_Props.v
theories/Lib_FloatMul.v
theories/Rprop_Model.v
theories/Rprop_Spec.v
theories/Rprop_Proofs.v
theories/Rprop_Toy.v
theories/Rprop_Props.v
theories/Sampler_Model.v
theories/Sampler_Spec.v
theories/Sampler_Proofs.v
theories/Sampler_Toy.v
theories/Sampler_Props.v
theories/CCM_Model.v
theories/CCM_Spec.v
theories/CCM_Proofs.v
theories/CCM_Proofs2.v
theories/CCM_Proofs3.v
theories/CCM_Toy.v
theories/CCM_Props.v
theories/SBM_Model.v
theories/SBM_Spec.v
theories/SBM_Proofs.v
theories/SBM_Proofs2.v
theories/SBM_Proofs3.v
theories/SBM_Proofs4.v
theories/SBM_Proofs5.v
theories/SBM_Toy.v
theories/SBM_Props.v
theories/Schur_Model.v
theories/Schur_Spec.v
theories/Schur_Proofs.v
theories/Schur_Proofs2.v
theories/Schur_Toy.v
theories/Schur_Props.v
theories/Cov_Model.v
theories/Cov_Spec.v
theories/Cov_Proofs.v
theories/Cov_Proofs2.v
theories/Cov_Toy.v
theories/Cov_Props.v
theories/PCG_Model.v
theories/PCG_Spec.v
theories/PCG_Proofs.v
theories/PCG_Toy.v
theories/PCG_Props.v
theories/LinSolve_Model.v
theories/LinSolve_Spec.v
theories/LinSolve_Proofs.v
theories/LinSolve_Proofs2.v
theories/LinSolve_Toy.v
theories/LinSolve_Props.v
theories/Marg_Model.v
theories/Marg_Spec.v
theories/Marg_Proofs.v
theories/Marg_Proofs2.v
theories/Marg_Toy.v
theories/Marg_Props.v
theories/Expr_Base.v
theories/Scalar_Model.v
theories/Scalar_Spec.v
theories/Scalar_Calc.v
theories/Scalar_Proofs.v
theories/Scalar_Proofs2.v
theories/Scalar_Toy.v
theories/Scalar_Props.v
theories/Geo_Model.v
theories/Geo_Spec.v
theories/Geo_Algebra.v
theories/Geo_Proofs.v
theories/Geo_Tangent.v
theories/Geo_Main.v
theories/Geo_Proofs2.v
theories/Geo_Toy.v
theories/Geo_Props.v
theories/Stale_Model.v
theories/Stale_Spec.v
theories/Stale_Proofs.v
theories/Stale_Toy.v
theories/Stale_Props.v
theories/Quat_Model.v
theories/Quat_Spec.v
theories/Quat_Proofs.v
theories/Quat_Toy.v
theories/Quat_Props.v
theories/Fix_Model.v
theories/Fix_Spec.v
theories/Fix_Proofs.v
theories/Fix_Float.v
theories/Fix_Toy.v
theories/Fix_Props.v
theories/Empty_Model.v
theories/Empty_Proofs.v
theories/Empty_Toy.v
theories/Empty_Props.v
theories/Chain_Model.v
theories/Chain_Spec.v
theories/Chain_Proofs.v
theories/Chain_Toy.v
theories/Chain_Props.v
theories/Cache_Model.v
theories/Cache_Spec.v
theories/Cache_Proofs.v
theories/Cache_Proofs2.v
theories/Cache_Proofs3.v
theories/Cache_Toy.v
theories/Cache_Props.v
theories/Lib_MatInv.v
theories/MatExpr_Model.v
theories/MatExpr_Spec.v
theories/MatExpr_Proofs.v
theories/MatExpr_Proofs2.v
theories/MatExpr_Proofs3.v
theories/MatExpr_Proofs4.v
theories/MatExpr_Toy.v
theories/MatExpr_Props.v
theories/Vars_Model.v
theories/Vars_Spec.v
theories/Vars_Proofs.v
theories/Vars_Proofs2.v
theories/Vars_Proofs3.v
theories/Vars_Toy.v
theories/Vars_Toy2.v
theories/Vars_Props.v
theories/Vars_Props2.v
theories/Flat_Model.v
theories/Flat_Spec.v
theories/Flat_Proofs.v
theories/Flat_Toy.v
theories/Flat_Props.v
theories/SProb_Model.v
theories/SProb_Spec.v
theories/SProb_Proofs.v
theories/SProb_Props.v
theories/DogLeg1_Model.v
theories/DogLeg1_Spec.v
theories/DogLeg1_Proofs.v
theories/DogLeg1_Proofs2.v
theories/DogLeg1_Props.v
theories/Terms_Model.v
theories/Terms_Spec.v
theories/Terms_Proofs.v
theories/Terms_Proofs2.v
theories/Terms_Props.v
theories/MinDiff_Model.v
theories/MinDiff_Spec.v
theories/MinDiff_Proofs.v
theories/MinDiff_Exact.v
theories/MinDiff_Proofs2.v
theories/MinDiff_Proofs3.v
theories/MinDiff_Props.v
theories/BSolver_Model.v
theories/BSolver_Spec.v
theories/BSolver_Proofs.v
theories/BSolver_Proofs2.v
theories/BSolver_Proofs3.v
theories/BSolver_Toy.v
theories/BSolver_Props.v
theories/BlkSys_Model.v
theories/BlkSys_Spec.v
theories/BlkSys_Proofs.v
theories/BlkSys_Toy.v
theories/BlkSys_Props.v
theories/Adapt_Model.v
theories/Adapt_Spec.v
theories/Adapt_Proofs.v
theories/Adapt_Proofs2.v
theories/Adapt_Toy.v
theories/Adapt_Props.v
theories/Gain_Spec.v
theories/Gain_Proofs.v
theories/Gain_Proofs2.v
theories/Gain_Proofs3.v
theories/Gain_Toy.v
theories/Gain_Props.v
theories/LMLive_Spec.v
theories/LMLive_Proofs.v
theories/LMLive_Proofs2.v
theories/LMLive_Proofs3.v
theories/LMLive_Toy.v
theories/LMLive_Props.v
theories/LinSolve_Proofs3.v
theories/Empty_Proofs2.v
theories/Robust_Spec.v
theories/Robust_Proofs.v
theories/Robust_Toy.v
theories/Robust_Props.v
theories/MatIf_Model.v
theories/MatIf_Spec.v
theories/MatIf_Proofs.v
theories/MatIf_Toy.v
theories/MatIf_Props.v
theories/Mapped_Model.v
theories/Mapped_Spec.v
theories/Mapped_Proofs.v
theories/Mapped_Toy.v
theories/Mapped_Props.v
theories/Fin_Model.v
theories/Fin_Spec.v
theories/Fin_Proofs.v
theories/Fin_Toy.v
theories/Fin_Props.v
theories/Own_Model.v
theories/Own_Spec.v
theories/Own_Proofs.v
theories/Own_Proofs2.v
theories/Own_Proofs3.v
theories/Own_Toy.v
theories/Own_Props.v
theories/Vars_Spec2.v
theories/Vars_Proofs4.v
theories/Vars_Toy3.v
theories/Vars_Props3.v
theories/Text_Model.v
theories/Text_Spec.v
theories/Text_Proofs.v
theories/Text_Proofs2.v
theories/Text_Toy.v
theories/Text_Props.v
theories/Tut_Model.v
theories/Tut_Spec.v
theories/Tut_Proofs.v
theories/Tut_Proofs2.v
theories/Tut_Toy.v
theories/Tut_Props.v
theories/Lib_CG.v
theories/PCG_Spec2.v
theories/PCG_Proofs2.v
theories/PCG_Toy2.v
theories/PCG_Props2.v
theories/Lin_Model.v
theories/Lin_Spec.v
theories/Lin_Proofs.v
theories/Lin_Proofs2.v
theories/Lin_Proofs3.v
theories/Lin_Toy.v
theories/Lin_Props.v
theories/Conf_Model.v
theories/Conf_Spec.v
theories/Conf_Proofs.v
theories/Conf_Proofs2.v
theories/Conf_Toy.v
theories/Conf_Props.v
theories/Life_Model.v
theories/Life_Spec.v
theories/Life_Proofs.v
theories/Life_Proofs2.v
theories/Life_Proofs3.v
theories/Life_Toy.v
theories/Life_Props.v
theories/LinDL_Model.v
theories/LinDL_Spec.v
theories/LinDL_Proofs.v
theories/LinDL_Proofs2.v
theories/LinDL_Toy.v
theories/LinDL_Props.v
theories/Frames_Model.v
theories/Frames_Spec.v
theories/Frames_Proofs.v
theories/Frames_Proofs2.v
theories/Frames_Toy.v
theories/Frames_Props.v
theories/OptStop_Proofs.v
theories/OptStop_Props.v
theories/Nlin_Model.v
theories/Nlin_Spec.v
theories/Nlin_Proofs.v
theories/Nlin_Proofs2.v
theories/Nlin_Toy.v
theories/Nlin_Props.v
theories/DLStale_Spec.v
theories/DLStale_Proofs.v
theories/DLStale_Props.v
theories/NlinDL_Model.v
theories/NlinDL_Proofs.v
theories/NlinDL_Toy.v
theories/NlinDL_Props.v
theories/GNConv_Spec.v
theories/GNConv_Proofs.v
theories/GNConv_Proofs2.v
theories/GNConv_Proofs3.v
theories/GNConv_Toy.v
theories/GNConv_Props.v
theories/PyB_Model.v
theories/PyB_Spec.v
theories/PyB_Proofs.v
theories/PyB_Toy.v
theories/PyB_Props.v
theories/LMConv_Spec.v
theories/LMConv_Proofs.v
theories/LMConv_Proofs2.v
theories/LMConv_Proofs3.v
theories/LMConv_Toy.v
theories/LMConv_Props.v
theories/Trial_Spec.v
theories/Trial_Proofs.v
theories/Trial_Proofs2.v
theories/Trial_Proofs3.v
theories/Trial_Toy.v
theories/Trial_Props.v
theories/QuatVal_Spec.v
theories/QuatVal_Proofs.v
theories/QuatVal_Props.v
