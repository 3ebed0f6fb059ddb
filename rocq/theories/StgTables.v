(** * Tables of the setting classes (generated from the source by tools/gen_settings.py)
    solver/include/solver/interface/SolverParams.hpp l.14-102 (enumerations), solver/src/solver/interface/SolverSetting.cpp l.18-75 (file), l.80-239 (get, set);
    momentumopt/include/momentumopt/setting/PlannerParams.hpp l.14-173, momentumopt/src/momentumopt/setting/PlannerSetting.cpp l.40-236 (file), l.238-673 (get).
    A case of a switch maps the parameter to the member it returns or assigns; None is the default branch. *)
From Coq Require Import List String.
Import ListNotations.
Local Open Scope string_scope.

Inductive SolverIntParam := SolverIntParam_BnBMaxIters | SolverIntParam_EquilibrationIters | SolverIntParam_NumIterRefinementsLinSolve | SolverIntParam_MaxIters | SolverIntParam_WarmStartIters | SolverIntParam_SolverMaxIters | SolverIntParam_NumberRefinementsTrustRegion | SolverIntParam_ColNum | SolverIntParam_NumIter | SolverIntParam_NumRefsLinSolve | SolverIntParam_NumRefsLinSolveAffine | SolverIntParam_NumRefsLinSolveCorrector.
Definition all_SolverIntParam : list SolverIntParam := [SolverIntParam_BnBMaxIters; SolverIntParam_EquilibrationIters; SolverIntParam_NumIterRefinementsLinSolve; SolverIntParam_MaxIters; SolverIntParam_WarmStartIters; SolverIntParam_SolverMaxIters; SolverIntParam_NumberRefinementsTrustRegion; SolverIntParam_ColNum; SolverIntParam_NumIter; SolverIntParam_NumRefsLinSolve; SolverIntParam_NumRefsLinSolveAffine; SolverIntParam_NumRefsLinSolveCorrector].
Inductive SolverBoolParam := SolverBoolParam_Verbose | SolverBoolParam_BnBVerbose.
Definition all_SolverBoolParam : list SolverBoolParam := [SolverBoolParam_Verbose; SolverBoolParam_BnBVerbose].
Inductive SolverDoubleParam := SolverDoubleParam_BnBIntegerTol | SolverDoubleParam_BnBAbsSubOptGap | SolverDoubleParam_BnBRelSubOptGap | SolverDoubleParam_FeasibilityTol | SolverDoubleParam_DualityGapAbsTol | SolverDoubleParam_DualityGapRelTol | SolverDoubleParam_FeasibilityTolInacc | SolverDoubleParam_DualityGapAbsTolInacc | SolverDoubleParam_DualityGapRelTolInacc | SolverDoubleParam_LinearSystemAccuracy | SolverDoubleParam_ErrorReductionFactor | SolverDoubleParam_StaticRegularization | SolverDoubleParam_DynamicRegularization | SolverDoubleParam_DynamicRegularizationThresh | SolverDoubleParam_SafeGuard | SolverDoubleParam_MinimumStepLength | SolverDoubleParam_MaximumStepLength | SolverDoubleParam_StepLengthScaling | SolverDoubleParam_MinimumCenteringStep | SolverDoubleParam_MaximumCenteringStep | SolverDoubleParam_TrustRegionThreshold | SolverDoubleParam_SoftConstraintWeightFull | SolverDoubleParam_SoftConstraintWeightReduced | SolverDoubleParam_X | SolverDoubleParam_LB | SolverDoubleParam_UB | SolverDoubleParam_Guess | SolverDoubleParam_Tau | SolverDoubleParam_Kappa | SolverDoubleParam_DualCost | SolverDoubleParam_PrimalCost | SolverDoubleParam_DualityGap | SolverDoubleParam_KappaOverTau | SolverDoubleParam_DualResidual | SolverDoubleParam_MeritFunction | SolverDoubleParam_PrimalResidual | SolverDoubleParam_DualInfeasibility | SolverDoubleParam_RelativeDualityGap | SolverDoubleParam_PrimalInfeasibility | SolverDoubleParam_StepLength | SolverDoubleParam_AffineStepLength | SolverDoubleParam_CorrectionStepLength.
Definition all_SolverDoubleParam : list SolverDoubleParam := [SolverDoubleParam_BnBIntegerTol; SolverDoubleParam_BnBAbsSubOptGap; SolverDoubleParam_BnBRelSubOptGap; SolverDoubleParam_FeasibilityTol; SolverDoubleParam_DualityGapAbsTol; SolverDoubleParam_DualityGapRelTol; SolverDoubleParam_FeasibilityTolInacc; SolverDoubleParam_DualityGapAbsTolInacc; SolverDoubleParam_DualityGapRelTolInacc; SolverDoubleParam_LinearSystemAccuracy; SolverDoubleParam_ErrorReductionFactor; SolverDoubleParam_StaticRegularization; SolverDoubleParam_DynamicRegularization; SolverDoubleParam_DynamicRegularizationThresh; SolverDoubleParam_SafeGuard; SolverDoubleParam_MinimumStepLength; SolverDoubleParam_MaximumStepLength; SolverDoubleParam_StepLengthScaling; SolverDoubleParam_MinimumCenteringStep; SolverDoubleParam_MaximumCenteringStep; SolverDoubleParam_TrustRegionThreshold; SolverDoubleParam_SoftConstraintWeightFull; SolverDoubleParam_SoftConstraintWeightReduced; SolverDoubleParam_X; SolverDoubleParam_LB; SolverDoubleParam_UB; SolverDoubleParam_Guess; SolverDoubleParam_Tau; SolverDoubleParam_Kappa; SolverDoubleParam_DualCost; SolverDoubleParam_PrimalCost; SolverDoubleParam_DualityGap; SolverDoubleParam_KappaOverTau; SolverDoubleParam_DualResidual; SolverDoubleParam_MeritFunction; SolverDoubleParam_PrimalResidual; SolverDoubleParam_DualInfeasibility; SolverDoubleParam_RelativeDualityGap; SolverDoubleParam_PrimalInfeasibility; SolverDoubleParam_StepLength; SolverDoubleParam_AffineStepLength; SolverDoubleParam_CorrectionStepLength].
Definition solver_get_SolverBoolParam (p : SolverBoolParam) : option string :=
  match p with
  | SolverBoolParam_Verbose => Some "verbose_"
  | SolverBoolParam_BnBVerbose => Some "BnB_verbose_"
  end.
Definition solver_set_SolverBoolParam (p : SolverBoolParam) : option string :=
  match p with
  | SolverBoolParam_Verbose => Some "verbose_"
  | SolverBoolParam_BnBVerbose => Some "BnB_verbose_"
  end.
Definition solver_get_SolverIntParam (p : SolverIntParam) : option string :=
  match p with
  | SolverIntParam_BnBMaxIters => Some "BnB_max_iterations_"
  | SolverIntParam_EquilibrationIters => Some "equil_iterations_"
  | SolverIntParam_NumIterRefinementsLinSolve => Some "num_iter_ref_lin_solve_"
  | SolverIntParam_MaxIters => Some "max_iters_"
  | SolverIntParam_WarmStartIters => Some "ipsolver_warm_iters_"
  | SolverIntParam_SolverMaxIters => Some "ipsolver_max_iters_"
  | SolverIntParam_NumberRefinementsTrustRegion => Some "num_itrefs_trustregion_"
  | _ => None
  end.
Definition solver_set_SolverIntParam (p : SolverIntParam) : option string :=
  match p with
  | SolverIntParam_BnBMaxIters => Some "BnB_max_iterations_"
  | SolverIntParam_EquilibrationIters => Some "equil_iterations_"
  | SolverIntParam_NumIterRefinementsLinSolve => Some "num_iter_ref_lin_solve_"
  | SolverIntParam_MaxIters => Some "max_iters_"
  | SolverIntParam_WarmStartIters => Some "ipsolver_warm_iters_"
  | SolverIntParam_SolverMaxIters => Some "ipsolver_max_iters_"
  | SolverIntParam_NumberRefinementsTrustRegion => Some "num_itrefs_trustregion_"
  | _ => None
  end.
Definition solver_get_SolverDoubleParam (p : SolverDoubleParam) : option string :=
  match p with
  | SolverDoubleParam_BnBIntegerTol => Some "BnB_integer_tolerance_"
  | SolverDoubleParam_BnBAbsSubOptGap => Some "BnB_absolute_suboptimality_gap_"
  | SolverDoubleParam_BnBRelSubOptGap => Some "BnB_relative_suboptimality_gap_"
  | SolverDoubleParam_FeasibilityTol => Some "feasibility_tolerance_"
  | SolverDoubleParam_DualityGapAbsTol => Some "absolute_suboptimality_gap_"
  | SolverDoubleParam_DualityGapRelTol => Some "relative_suboptimality_gap_"
  | SolverDoubleParam_FeasibilityTolInacc => Some "feasibility_tolerance_inaccurate_"
  | SolverDoubleParam_DualityGapAbsTolInacc => Some "absolute_suboptimality_gap_inaccurate_"
  | SolverDoubleParam_DualityGapRelTolInacc => Some "relative_suboptimality_gap_inaccurate_"
  | SolverDoubleParam_LinearSystemAccuracy => Some "lin_sys_accuracy_"
  | SolverDoubleParam_ErrorReductionFactor => Some "err_reduction_factor_"
  | SolverDoubleParam_StaticRegularization => Some "static_regularization_"
  | SolverDoubleParam_DynamicRegularization => Some "dynamic_regularization_"
  | SolverDoubleParam_DynamicRegularizationThresh => Some "dyn_reg_thresh_"
  | SolverDoubleParam_SafeGuard => Some "safeguard_"
  | SolverDoubleParam_MinimumStepLength => Some "min_step_length_"
  | SolverDoubleParam_MaximumStepLength => Some "max_step_length_"
  | SolverDoubleParam_StepLengthScaling => Some "step_length_scaling_"
  | SolverDoubleParam_MinimumCenteringStep => Some "min_centering_step_"
  | SolverDoubleParam_MaximumCenteringStep => Some "max_centering_step_"
  | SolverDoubleParam_TrustRegionThreshold => Some "trust_region_threshold_"
  | SolverDoubleParam_SoftConstraintWeightFull => Some "soft_constraint_weight_full_"
  | SolverDoubleParam_SoftConstraintWeightReduced => Some "soft_constraint_weight_reduced_"
  | _ => None
  end.
Definition solver_set_SolverDoubleParam (p : SolverDoubleParam) : option string :=
  match p with
  | SolverDoubleParam_BnBIntegerTol => Some "BnB_integer_tolerance_"
  | SolverDoubleParam_BnBAbsSubOptGap => Some "BnB_absolute_suboptimality_gap_"
  | SolverDoubleParam_BnBRelSubOptGap => Some "BnB_relative_suboptimality_gap_"
  | SolverDoubleParam_FeasibilityTol => Some "feasibility_tolerance_"
  | SolverDoubleParam_DualityGapAbsTol => Some "absolute_suboptimality_gap_"
  | SolverDoubleParam_DualityGapRelTol => Some "relative_suboptimality_gap_"
  | SolverDoubleParam_FeasibilityTolInacc => Some "feasibility_tolerance_inaccurate_"
  | SolverDoubleParam_DualityGapAbsTolInacc => Some "absolute_suboptimality_gap_inaccurate_"
  | SolverDoubleParam_DualityGapRelTolInacc => Some "relative_suboptimality_gap_inaccurate_"
  | SolverDoubleParam_LinearSystemAccuracy => Some "lin_sys_accuracy_"
  | SolverDoubleParam_ErrorReductionFactor => Some "err_reduction_factor_"
  | SolverDoubleParam_StaticRegularization => Some "static_regularization_"
  | SolverDoubleParam_DynamicRegularization => Some "dynamic_regularization_"
  | SolverDoubleParam_DynamicRegularizationThresh => Some "dyn_reg_thresh_"
  | SolverDoubleParam_SafeGuard => Some "safeguard_"
  | SolverDoubleParam_MinimumStepLength => Some "min_step_length_"
  | SolverDoubleParam_MaximumStepLength => Some "max_step_length_"
  | SolverDoubleParam_StepLengthScaling => Some "step_length_scaling_"
  | SolverDoubleParam_MinimumCenteringStep => Some "min_centering_step_"
  | SolverDoubleParam_MaximumCenteringStep => Some "max_centering_step_"
  | SolverDoubleParam_TrustRegionThreshold => Some "trust_region_threshold_"
  | SolverDoubleParam_SoftConstraintWeightFull => Some "soft_constraint_weight_full_"
  | SolverDoubleParam_SoftConstraintWeightReduced => Some "soft_constraint_weight_reduced_"
  | _ => None
  end.
(** member, key and type, in the order of the file reader *)
Inductive stype := Tbool | Tint | Tdouble | Tstring | Tvector | Tivector.
Definition solver_file : list (string * string * stype) := [
  ("BnB_verbose_", "BnB_verbose", Tbool);
  ("BnB_max_iterations_", "BnB_max_iterations", Tint);
  ("BnB_integer_tolerance_", "BnB_integer_tolerance", Tdouble);
  ("BnB_absolute_suboptimality_gap_", "BnB_absolute_suboptimality_gap", Tdouble);
  ("BnB_relative_suboptimality_gap_", "BnB_relative_suboptimality_gap", Tdouble);
  ("feasibility_tolerance_", "feasibility_tolerance", Tdouble);
  ("absolute_suboptimality_gap_", "absolute_suboptimality_gap", Tdouble);
  ("relative_suboptimality_gap_", "relative_suboptimality_gap", Tdouble);
  ("feasibility_tolerance_inaccurate_", "feasibility_tolerance_inaccurate", Tdouble);
  ("absolute_suboptimality_gap_inaccurate_", "absolute_suboptimality_gap_inaccurate", Tdouble);
  ("relative_suboptimality_gap_inaccurate_", "relative_suboptimality_gap_inaccurate", Tdouble);
  ("equil_iterations_", "equil_iterations", Tint);
  ("dyn_reg_thresh_", "dyn_reg_thresh", Tdouble);
  ("lin_sys_accuracy_", "lin_sys_accuracy", Tdouble);
  ("err_reduction_factor_", "err_reduction_factor", Tdouble);
  ("num_iter_ref_lin_solve_", "num_iter_ref_lin_solve", Tint);
  ("static_regularization_", "static_regularization", Tdouble);
  ("dynamic_regularization_", "dynamic_regularization", Tdouble);
  ("safeguard_", "safeguard", Tdouble);
  ("min_step_length_", "min_step_length", Tdouble);
  ("max_step_length_", "max_step_length", Tdouble);
  ("min_centering_step_", "min_centering_step", Tdouble);
  ("max_centering_step_", "max_centering_step", Tdouble);
  ("step_length_scaling_", "step_length_scaling", Tdouble);
  ("verbose_", "verbose", Tbool);
  ("max_iters_", "max_iters", Tint);
  ("ipsolver_max_iters_", "ipsolver_max_iters", Tint);
  ("ipsolver_warm_iters_", "ipsolver_warm_iters", Tint);
  ("num_itrefs_trustregion_", "num_itrefs_trustregion", Tint);
  ("trust_region_threshold_", "trust_region_threshold", Tdouble);
  ("soft_constraint_weight_full_", "soft_constraint_weight_full", Tdouble);
  ("soft_constraint_weight_reduced_", "soft_constraint_weight_reduced", Tdouble)].
Inductive PlannerIntParam := PlannerIntParam_NumDofs | PlannerIntParam_NumTimesteps | PlannerIntParam_NumViapoints | PlannerIntParam_NumJointViapoints | PlannerIntParam_NumBaseViapoints | PlannerIntParam_NumJointViapoints_Second | PlannerIntParam_NumBaseViapoints_Second | PlannerIntParam_NumActiveDofs | PlannerIntParam_MaxNumTimeIterations | PlannerIntParam_NumExtendedActiveDofs | PlannerIntParam_NumActiveEndeffectors | PlannerIntParam_MaxKinTrajectoryIterations | PlannerIntParam_MaxKinConvergenceIterations | PlannerIntParam_NumSubsamples | PlannerIntParam_KinDynIterations.
Definition all_PlannerIntParam : list PlannerIntParam := [PlannerIntParam_NumDofs; PlannerIntParam_NumTimesteps; PlannerIntParam_NumViapoints; PlannerIntParam_NumJointViapoints; PlannerIntParam_NumBaseViapoints; PlannerIntParam_NumJointViapoints_Second; PlannerIntParam_NumBaseViapoints_Second; PlannerIntParam_NumActiveDofs; PlannerIntParam_MaxNumTimeIterations; PlannerIntParam_NumExtendedActiveDofs; PlannerIntParam_NumActiveEndeffectors; PlannerIntParam_MaxKinTrajectoryIterations; PlannerIntParam_MaxKinConvergenceIterations; PlannerIntParam_NumSubsamples; PlannerIntParam_KinDynIterations].
Inductive PlannerBoolParam := PlannerBoolParam_IsTimeHorizonFixed | PlannerBoolParam_IsFrictionConeLinear | PlannerBoolParam_DisplayMotion | PlannerBoolParam_LoadKinematics | PlannerBoolParam_StoreData | PlannerBoolParam_UseDefaultSolverSetting | PlannerBoolParam_UseSecondOrderInverseKinematics.
Definition all_PlannerBoolParam : list PlannerBoolParam := [PlannerBoolParam_IsTimeHorizonFixed; PlannerBoolParam_IsFrictionConeLinear; PlannerBoolParam_DisplayMotion; PlannerBoolParam_LoadKinematics; PlannerBoolParam_StoreData; PlannerBoolParam_UseDefaultSolverSetting; PlannerBoolParam_UseSecondOrderInverseKinematics].
Inductive PlannerDoubleParam := PlannerDoubleParam_Gravity | PlannerDoubleParam_TimeStep | PlannerDoubleParam_RobotMass | PlannerDoubleParam_RobotWeight | PlannerDoubleParam_TimeHorizon | PlannerDoubleParam_MinRelHeight | PlannerDoubleParam_MassTimesGravity | PlannerDoubleParam_FrictionCoefficient | PlannerDoubleParam_MaxTimeResidualTolerance | PlannerDoubleParam_MinTimeResidualImprovement | PlannerDoubleParam_WeightArmTorque | PlannerDoubleParam_WeightLegTorque | PlannerDoubleParam_WeightTimePenalty | PlannerDoubleParam_WeightTimeRegularization | PlannerDoubleParam_FloorHeight | PlannerDoubleParam_KinSlacksPenalty | PlannerDoubleParam_KinIntegrationStep | PlannerDoubleParam_LambdaRegularization | PlannerDoubleParam_KinConvergenceTolerance | PlannerDoubleParam_SwingTrajViaZ | PlannerDoubleParam_WeightLinMomentumTracking | PlannerDoubleParam_WeightAngMomentumTracking | PlannerDoubleParam_WeightEndEffContact | PlannerDoubleParam_WeightEndEffTracking | PlannerDoubleParam_PGainEndEffTracking | PlannerDoubleParam_PGainComTracking | PlannerDoubleParam_WeightJointReg | PlannerDoubleParam_PGainOrientationTracking | PlannerDoubleParam_PGainPositionTracking | PlannerDoubleParam_SwingTrajViaZ_Second | PlannerDoubleParam_WeightLinMomentumTracking_Second | PlannerDoubleParam_WeightAngMomentumTracking_Second | PlannerDoubleParam_WeightEndEffContact_Second | PlannerDoubleParam_WeightEndEffTracking_Second | PlannerDoubleParam_PGainEndEffTracking_Second | PlannerDoubleParam_PGainComTracking_Second | PlannerDoubleParam_WeightJointReg_Second | PlannerDoubleParam_DGainEndEffTracking_Second | PlannerDoubleParam_PGainBaseOrientationTracking_Second | PlannerDoubleParam_DGainBaseOrientationTracking_Second | PlannerDoubleParam_PGainJointRegularization_Second | PlannerDoubleParam_DGainJointRegularization_Second.
Definition all_PlannerDoubleParam : list PlannerDoubleParam := [PlannerDoubleParam_Gravity; PlannerDoubleParam_TimeStep; PlannerDoubleParam_RobotMass; PlannerDoubleParam_RobotWeight; PlannerDoubleParam_TimeHorizon; PlannerDoubleParam_MinRelHeight; PlannerDoubleParam_MassTimesGravity; PlannerDoubleParam_FrictionCoefficient; PlannerDoubleParam_MaxTimeResidualTolerance; PlannerDoubleParam_MinTimeResidualImprovement; PlannerDoubleParam_WeightArmTorque; PlannerDoubleParam_WeightLegTorque; PlannerDoubleParam_WeightTimePenalty; PlannerDoubleParam_WeightTimeRegularization; PlannerDoubleParam_FloorHeight; PlannerDoubleParam_KinSlacksPenalty; PlannerDoubleParam_KinIntegrationStep; PlannerDoubleParam_LambdaRegularization; PlannerDoubleParam_KinConvergenceTolerance; PlannerDoubleParam_SwingTrajViaZ; PlannerDoubleParam_WeightLinMomentumTracking; PlannerDoubleParam_WeightAngMomentumTracking; PlannerDoubleParam_WeightEndEffContact; PlannerDoubleParam_WeightEndEffTracking; PlannerDoubleParam_PGainEndEffTracking; PlannerDoubleParam_PGainComTracking; PlannerDoubleParam_WeightJointReg; PlannerDoubleParam_PGainOrientationTracking; PlannerDoubleParam_PGainPositionTracking; PlannerDoubleParam_SwingTrajViaZ_Second; PlannerDoubleParam_WeightLinMomentumTracking_Second; PlannerDoubleParam_WeightAngMomentumTracking_Second; PlannerDoubleParam_WeightEndEffContact_Second; PlannerDoubleParam_WeightEndEffTracking_Second; PlannerDoubleParam_PGainEndEffTracking_Second; PlannerDoubleParam_PGainComTracking_Second; PlannerDoubleParam_WeightJointReg_Second; PlannerDoubleParam_DGainEndEffTracking_Second; PlannerDoubleParam_PGainBaseOrientationTracking_Second; PlannerDoubleParam_DGainBaseOrientationTracking_Second; PlannerDoubleParam_PGainJointRegularization_Second; PlannerDoubleParam_DGainJointRegularization_Second].
Inductive PlannerStringParam := PlannerStringParam_ConfigFile | PlannerStringParam_SaveDynamicsFile | PlannerStringParam_SaveKinematicsFile | PlannerStringParam_DefaultSolverSettingFile.
Definition all_PlannerStringParam : list PlannerStringParam := [PlannerStringParam_ConfigFile; PlannerStringParam_SaveDynamicsFile; PlannerStringParam_SaveKinematicsFile; PlannerStringParam_DefaultSolverSettingFile].
Inductive PlannerIntVectorParam := PlannerIntVectorParam_ActiveDofs | PlannerIntVectorParam_ExtendedActiveDofs.
Definition all_PlannerIntVectorParam : list PlannerIntVectorParam := [PlannerIntVectorParam_ActiveDofs; PlannerIntVectorParam_ExtendedActiveDofs].
Inductive PlannerVectorParam := PlannerVectorParam_TimeRange | PlannerVectorParam_TorqueRange | PlannerVectorParam_ExternalForce | PlannerVectorParam_GravityVector | PlannerVectorParam_CenterOfMassMotion | PlannerVectorParam_MaxEndeffectorLengths | PlannerVectorParam_WeightArmForce | PlannerVectorParam_WeightLegForce | PlannerVectorParam_WeightArmForceRate | PlannerVectorParam_WeightLegForceRate | PlannerVectorParam_WeightCenterOfMass | PlannerVectorParam_WeightLinearMomentum | PlannerVectorParam_WeightAngularMomentum | PlannerVectorParam_WeightLinearMomentumRate | PlannerVectorParam_WeightAngularMomentumRate | PlannerVectorParam_WeightFinalLinearMomentum | PlannerVectorParam_WeightCenterOfMassViapoint | PlannerVectorParam_WeightFinalAngularMomentum | PlannerVectorParam_WeightDynamicTrackingCenterOfMass | PlannerVectorParam_WeightDynamicTrackingLinearMomentum | PlannerVectorParam_WeightDynamicTrackingAngularMomentum | PlannerVectorParam_MinJointAngles | PlannerVectorParam_MaxJointAngles | PlannerVectorParam_KinematicDefaultJointPositions | PlannerVectorParam_WeightJointVelocity | PlannerVectorParam_WeightJointAcceleration | PlannerVectorParam_WeightKinematicTrackingCenterOfMass | PlannerVectorParam_WeightKinematicDefaultJointPositions | PlannerVectorParam_WeightKinematicTrackingLinearMomentum | PlannerVectorParam_WeightKinematicTrackingAngularMomentum | PlannerVectorParam_WeightKinematicTrackingBaseOrientation | PlannerVectorParam_WeightKinematicTrackingLinearMomentumRate | PlannerVectorParam_WeightKinematicTrackingAngularMomentumRate | PlannerVectorParam_WeightKinematicTrackingEndeffectorPosition | PlannerVectorParam_WeightKinematicTrackingNonActiveEndeffectorPosition | PlannerVectorParam_PGainMomentumTracking_Second.
Definition all_PlannerVectorParam : list PlannerVectorParam := [PlannerVectorParam_TimeRange; PlannerVectorParam_TorqueRange; PlannerVectorParam_ExternalForce; PlannerVectorParam_GravityVector; PlannerVectorParam_CenterOfMassMotion; PlannerVectorParam_MaxEndeffectorLengths; PlannerVectorParam_WeightArmForce; PlannerVectorParam_WeightLegForce; PlannerVectorParam_WeightArmForceRate; PlannerVectorParam_WeightLegForceRate; PlannerVectorParam_WeightCenterOfMass; PlannerVectorParam_WeightLinearMomentum; PlannerVectorParam_WeightAngularMomentum; PlannerVectorParam_WeightLinearMomentumRate; PlannerVectorParam_WeightAngularMomentumRate; PlannerVectorParam_WeightFinalLinearMomentum; PlannerVectorParam_WeightCenterOfMassViapoint; PlannerVectorParam_WeightFinalAngularMomentum; PlannerVectorParam_WeightDynamicTrackingCenterOfMass; PlannerVectorParam_WeightDynamicTrackingLinearMomentum; PlannerVectorParam_WeightDynamicTrackingAngularMomentum; PlannerVectorParam_MinJointAngles; PlannerVectorParam_MaxJointAngles; PlannerVectorParam_KinematicDefaultJointPositions; PlannerVectorParam_WeightJointVelocity; PlannerVectorParam_WeightJointAcceleration; PlannerVectorParam_WeightKinematicTrackingCenterOfMass; PlannerVectorParam_WeightKinematicDefaultJointPositions; PlannerVectorParam_WeightKinematicTrackingLinearMomentum; PlannerVectorParam_WeightKinematicTrackingAngularMomentum; PlannerVectorParam_WeightKinematicTrackingBaseOrientation; PlannerVectorParam_WeightKinematicTrackingLinearMomentumRate; PlannerVectorParam_WeightKinematicTrackingAngularMomentumRate; PlannerVectorParam_WeightKinematicTrackingEndeffectorPosition; PlannerVectorParam_WeightKinematicTrackingNonActiveEndeffectorPosition; PlannerVectorParam_PGainMomentumTracking_Second].
Inductive PlannerArrayParam := PlannerArrayParam_EndeffectorOffset | PlannerArrayParam_CenterOfPressureRange.
Definition all_PlannerArrayParam : list PlannerArrayParam := [PlannerArrayParam_EndeffectorOffset; PlannerArrayParam_CenterOfPressureRange].
Inductive PlannerCVectorParam := PlannerCVectorParam_Viapoints | PlannerCVectorParam_JointViapoints | PlannerCVectorParam_BaseViapoints | PlannerCVectorParam_JointViapoints_Second | PlannerCVectorParam_BaseViapoints_Second.
Definition all_PlannerCVectorParam : list PlannerCVectorParam := [PlannerCVectorParam_Viapoints; PlannerCVectorParam_JointViapoints; PlannerCVectorParam_BaseViapoints; PlannerCVectorParam_JointViapoints_Second; PlannerCVectorParam_BaseViapoints_Second].
Definition planner_read_PlannerIntParam (p : PlannerIntParam) : option string :=
  match p with
  | PlannerIntParam_NumDofs => Some "num_dofs_"
  | PlannerIntParam_NumTimesteps => Some "num_timesteps_"
  | PlannerIntParam_NumViapoints => Some "num_com_viapoints_"
  | PlannerIntParam_NumJointViapoints => Some "num_joint_viapoints_"
  | PlannerIntParam_NumBaseViapoints => Some "num_base_viapoints_"
  | PlannerIntParam_NumJointViapoints_Second => Some "num_joint_viapoints_second_"
  | PlannerIntParam_NumBaseViapoints_Second => Some "num_base_viapoints_second_"
  | PlannerIntParam_NumActiveDofs => Some "num_act_dofs_"
  | PlannerIntParam_MaxNumTimeIterations => Some "max_time_iterations_"
  | PlannerIntParam_NumExtendedActiveDofs => Some "num_extended_act_dofs_"
  | PlannerIntParam_NumActiveEndeffectors => Some "num_act_eefs_"
  | PlannerIntParam_MaxKinTrajectoryIterations => Some "max_trajectory_iters_"
  | PlannerIntParam_MaxKinConvergenceIterations => Some "max_convergence_iters_"
  | PlannerIntParam_NumSubsamples => Some "num_subsamples_"
  | PlannerIntParam_KinDynIterations => Some "kd_iterations_"
  end.
Definition planner_read_PlannerBoolParam (p : PlannerBoolParam) : option string :=
  match p with
  | PlannerBoolParam_IsTimeHorizonFixed => Some "is_time_horizon_fixed_"
  | PlannerBoolParam_IsFrictionConeLinear => Some "is_friction_cone_linear_"
  | PlannerBoolParam_DisplayMotion => Some "display_motion_"
  | PlannerBoolParam_LoadKinematics => Some "load_kinematics_"
  | PlannerBoolParam_StoreData => Some "store_data_"
  | PlannerBoolParam_UseDefaultSolverSetting => Some "use_default_solver_setting_"
  | PlannerBoolParam_UseSecondOrderInverseKinematics => Some "use_second_order_inv_kin_"
  end.
Definition planner_read_PlannerDoubleParam (p : PlannerDoubleParam) : option string :=
  match p with
  | PlannerDoubleParam_Gravity => Some "gravity_"
  | PlannerDoubleParam_TimeStep => Some "time_step_"
  | PlannerDoubleParam_RobotMass => Some "robot_mass_"
  | PlannerDoubleParam_RobotWeight => Some "mass_times_gravity_"
  | PlannerDoubleParam_TimeHorizon => Some "time_horizon_"
  | PlannerDoubleParam_MinRelHeight => Some "min_rel_height_"
  | PlannerDoubleParam_MassTimesGravity => Some "mass_times_gravity_"
  | PlannerDoubleParam_FrictionCoefficient => Some "friction_coeff_"
  | PlannerDoubleParam_MaxTimeResidualTolerance => Some "max_time_residual_tolerance_"
  | PlannerDoubleParam_MinTimeResidualImprovement => Some "min_time_residual_improvement_"
  | PlannerDoubleParam_WeightArmTorque => Some "w_trq_arm_"
  | PlannerDoubleParam_WeightLegTorque => Some "w_trq_leg_"
  | PlannerDoubleParam_WeightTimePenalty => Some "w_time_penalty_"
  | PlannerDoubleParam_WeightTimeRegularization => Some "w_time_"
  | PlannerDoubleParam_FloorHeight => Some "floor_height_"
  | PlannerDoubleParam_KinSlacksPenalty => Some "kin_slacks_penalty_"
  | PlannerDoubleParam_KinIntegrationStep => Some "kin_integration_step_"
  | PlannerDoubleParam_LambdaRegularization => Some "lambda_regularization_"
  | PlannerDoubleParam_KinConvergenceTolerance => Some "convergence_tolerance_"
  | PlannerDoubleParam_SwingTrajViaZ => Some "swing_traj_via_z_"
  | PlannerDoubleParam_WeightLinMomentumTracking => Some "w_lin_mom_tracking_"
  | PlannerDoubleParam_WeightAngMomentumTracking => Some "w_ang_mom_tracking_"
  | PlannerDoubleParam_WeightEndEffContact => Some "w_endeff_contact_"
  | PlannerDoubleParam_WeightEndEffTracking => Some "w_endeff_tracking_"
  | PlannerDoubleParam_PGainEndEffTracking => Some "p_endeff_tracking_"
  | PlannerDoubleParam_PGainComTracking => Some "p_com_tracking_"
  | PlannerDoubleParam_WeightJointReg => Some "w_joint_regularization_"
  | PlannerDoubleParam_PGainOrientationTracking => Some "reg_orientation_"
  | PlannerDoubleParam_PGainPositionTracking => Some "reg_joint_position_"
  | PlannerDoubleParam_SwingTrajViaZ_Second => Some "swing_traj_via_z_second_"
  | PlannerDoubleParam_WeightLinMomentumTracking_Second => Some "w_lin_mom_tracking_second_"
  | PlannerDoubleParam_WeightAngMomentumTracking_Second => Some "w_ang_mom_tracking_second_"
  | PlannerDoubleParam_WeightEndEffContact_Second => Some "w_endeff_contact_second_"
  | PlannerDoubleParam_WeightEndEffTracking_Second => Some "w_endeff_tracking_second_"
  | PlannerDoubleParam_PGainEndEffTracking_Second => Some "p_endeff_tracking_second_"
  | PlannerDoubleParam_PGainComTracking_Second => Some "p_com_tracking_second_"
  | PlannerDoubleParam_WeightJointReg_Second => Some "w_joint_regularization_second_"
  | PlannerDoubleParam_DGainEndEffTracking_Second => Some "d_endeff_tracking_second_"
  | PlannerDoubleParam_PGainBaseOrientationTracking_Second => Some "p_orient_tracking_second_"
  | PlannerDoubleParam_DGainBaseOrientationTracking_Second => Some "d_orient_tracking_second_"
  | PlannerDoubleParam_PGainJointRegularization_Second => Some "p_joint_regularization_second_"
  | PlannerDoubleParam_DGainJointRegularization_Second => Some "d_joint_regularization_second_"
  end.
Definition planner_read_PlannerStringParam (p : PlannerStringParam) : option string :=
  match p with
  | PlannerStringParam_ConfigFile => Some "cfg_file_"
  | PlannerStringParam_SaveDynamicsFile => Some "save_dynamics_file_"
  | PlannerStringParam_SaveKinematicsFile => Some "save_kinematics_file_"
  | PlannerStringParam_DefaultSolverSettingFile => Some "default_solver_setting_file_"
  end.
Definition planner_read_PlannerIntVectorParam (p : PlannerIntVectorParam) : option string :=
  match p with
  | PlannerIntVectorParam_ActiveDofs => Some "active_dofs_"
  | PlannerIntVectorParam_ExtendedActiveDofs => Some "extended_active_dofs_"
  end.
Definition planner_read_PlannerVectorParam (p : PlannerVectorParam) : option string :=
  match p with
  | PlannerVectorParam_TimeRange => Some "time_range_"
  | PlannerVectorParam_TorqueRange => Some "torque_range_"
  | PlannerVectorParam_ExternalForce => Some "external_force_"
  | PlannerVectorParam_GravityVector => Some "gravity_vector_"
  | PlannerVectorParam_CenterOfMassMotion => Some "com_displacement_"
  | PlannerVectorParam_MaxEndeffectorLengths => Some "max_eef_lengths_"
  | PlannerVectorParam_WeightArmForce => Some "w_frc_arm_"
  | PlannerVectorParam_WeightLegForce => Some "w_frc_leg_"
  | PlannerVectorParam_WeightArmForceRate => Some "w_dfrc_arm_"
  | PlannerVectorParam_WeightLegForceRate => Some "w_dfrc_leg_"
  | PlannerVectorParam_WeightCenterOfMass => Some "w_com_"
  | PlannerVectorParam_WeightLinearMomentum => Some "w_lmom_"
  | PlannerVectorParam_WeightAngularMomentum => Some "w_amom_"
  | PlannerVectorParam_WeightLinearMomentumRate => Some "w_lmomd_"
  | PlannerVectorParam_WeightAngularMomentumRate => Some "w_amomd_"
  | PlannerVectorParam_WeightFinalLinearMomentum => Some "w_lmom_final_"
  | PlannerVectorParam_WeightCenterOfMassViapoint => Some "w_com_via_"
  | PlannerVectorParam_WeightFinalAngularMomentum => Some "w_amom_final_"
  | PlannerVectorParam_WeightDynamicTrackingCenterOfMass => Some "w_com_track_"
  | PlannerVectorParam_WeightDynamicTrackingLinearMomentum => Some "w_lmom_track_"
  | PlannerVectorParam_WeightDynamicTrackingAngularMomentum => Some "w_amom_track_"
  | PlannerVectorParam_MinJointAngles => Some "min_joint_limits_"
  | PlannerVectorParam_MaxJointAngles => Some "max_joint_limits_"
  | PlannerVectorParam_KinematicDefaultJointPositions => Some "default_joint_positions_"
  | PlannerVectorParam_WeightJointVelocity => Some "w_kin_joint_vel_"
  | PlannerVectorParam_WeightJointAcceleration => Some "w_kin_joint_acc_"
  | PlannerVectorParam_WeightKinematicTrackingCenterOfMass => Some "w_kin_com_"
  | PlannerVectorParam_WeightKinematicDefaultJointPositions => Some "w_kin_default_joints_"
  | PlannerVectorParam_WeightKinematicTrackingLinearMomentum => Some "w_kin_lmom_"
  | PlannerVectorParam_WeightKinematicTrackingAngularMomentum => Some "w_kin_amom_"
  | PlannerVectorParam_WeightKinematicTrackingBaseOrientation => Some "w_kin_base_ori_"
  | PlannerVectorParam_WeightKinematicTrackingLinearMomentumRate => Some "w_kin_lmomd_"
  | PlannerVectorParam_WeightKinematicTrackingAngularMomentumRate => Some "w_kin_amomd_"
  | PlannerVectorParam_WeightKinematicTrackingEndeffectorPosition => Some "w_kin_eff_pos_"
  | PlannerVectorParam_WeightKinematicTrackingNonActiveEndeffectorPosition => Some "w_kin_eff_pos_nonact_"
  | PlannerVectorParam_PGainMomentumTracking_Second => Some "p_mom_tracking_second_"
  end.
Definition planner_read_PlannerArrayParam (p : PlannerArrayParam) : option string :=
  match p with
  | PlannerArrayParam_EndeffectorOffset => Some "eff_offset_"
  | PlannerArrayParam_CenterOfPressureRange => Some "cop_range_"
  end.
Definition planner_read_PlannerCVectorParam (p : PlannerCVectorParam) : option string :=
  match p with
  | PlannerCVectorParam_Viapoints => Some "com_viapoints_"
  | PlannerCVectorParam_JointViapoints => Some "joint_viapoints_"
  | PlannerCVectorParam_BaseViapoints => Some "base_viapoints_"
  | PlannerCVectorParam_JointViapoints_Second => Some "joint_viapoints_second_"
  | PlannerCVectorParam_BaseViapoints_Second => Some "base_viapoints_second_"
  end.
Definition planner_write_PlannerIntParam (p : PlannerIntParam) : option string :=
  match p with
  | PlannerIntParam_NumDofs => Some "num_dofs_"
  | PlannerIntParam_NumTimesteps => Some "num_timesteps_"
  | PlannerIntParam_NumViapoints => Some "num_com_viapoints_"
  | PlannerIntParam_NumJointViapoints => Some "num_joint_viapoints_"
  | PlannerIntParam_NumBaseViapoints => Some "num_base_viapoints_"
  | PlannerIntParam_NumJointViapoints_Second => Some "num_joint_viapoints_second_"
  | PlannerIntParam_NumBaseViapoints_Second => Some "num_base_viapoints_second_"
  | PlannerIntParam_NumActiveDofs => Some "num_act_dofs_"
  | PlannerIntParam_MaxNumTimeIterations => Some "max_time_iterations_"
  | PlannerIntParam_NumExtendedActiveDofs => Some "num_extended_act_dofs_"
  | PlannerIntParam_NumActiveEndeffectors => Some "num_act_eefs_"
  | PlannerIntParam_MaxKinTrajectoryIterations => Some "max_trajectory_iters_"
  | PlannerIntParam_MaxKinConvergenceIterations => Some "max_convergence_iters_"
  | PlannerIntParam_NumSubsamples => Some "num_subsamples_"
  | PlannerIntParam_KinDynIterations => Some "kd_iterations_"
  end.
Definition planner_write_PlannerBoolParam (p : PlannerBoolParam) : option string :=
  match p with
  | PlannerBoolParam_IsTimeHorizonFixed => Some "is_time_horizon_fixed_"
  | PlannerBoolParam_IsFrictionConeLinear => Some "is_friction_cone_linear_"
  | PlannerBoolParam_DisplayMotion => Some "display_motion_"
  | PlannerBoolParam_LoadKinematics => Some "load_kinematics_"
  | PlannerBoolParam_StoreData => Some "store_data_"
  | PlannerBoolParam_UseDefaultSolverSetting => Some "use_default_solver_setting_"
  | PlannerBoolParam_UseSecondOrderInverseKinematics => Some "use_second_order_inv_kin_"
  end.
Definition planner_write_PlannerDoubleParam (p : PlannerDoubleParam) : option string :=
  match p with
  | PlannerDoubleParam_Gravity => Some "gravity_"
  | PlannerDoubleParam_TimeStep => Some "time_step_"
  | PlannerDoubleParam_RobotMass => Some "robot_mass_"
  | PlannerDoubleParam_RobotWeight => Some "mass_times_gravity_"
  | PlannerDoubleParam_TimeHorizon => Some "time_horizon_"
  | PlannerDoubleParam_MinRelHeight => Some "min_rel_height_"
  | PlannerDoubleParam_MassTimesGravity => Some "mass_times_gravity_"
  | PlannerDoubleParam_FrictionCoefficient => Some "friction_coeff_"
  | PlannerDoubleParam_MaxTimeResidualTolerance => Some "max_time_residual_tolerance_"
  | PlannerDoubleParam_MinTimeResidualImprovement => Some "min_time_residual_improvement_"
  | PlannerDoubleParam_WeightArmTorque => Some "w_trq_arm_"
  | PlannerDoubleParam_WeightLegTorque => Some "w_trq_leg_"
  | PlannerDoubleParam_WeightTimePenalty => Some "w_time_penalty_"
  | PlannerDoubleParam_WeightTimeRegularization => Some "w_time_"
  | PlannerDoubleParam_FloorHeight => Some "floor_height_"
  | PlannerDoubleParam_KinSlacksPenalty => Some "kin_slacks_penalty_"
  | PlannerDoubleParam_KinIntegrationStep => Some "kin_integration_step_"
  | PlannerDoubleParam_LambdaRegularization => Some "lambda_regularization_"
  | PlannerDoubleParam_KinConvergenceTolerance => Some "convergence_tolerance_"
  | PlannerDoubleParam_SwingTrajViaZ => Some "swing_traj_via_z_"
  | PlannerDoubleParam_WeightLinMomentumTracking => Some "w_lin_mom_tracking_"
  | PlannerDoubleParam_WeightAngMomentumTracking => Some "w_ang_mom_tracking_"
  | PlannerDoubleParam_WeightEndEffContact => Some "w_endeff_contact_"
  | PlannerDoubleParam_WeightEndEffTracking => Some "w_endeff_tracking_"
  | PlannerDoubleParam_PGainEndEffTracking => Some "p_endeff_tracking_"
  | PlannerDoubleParam_PGainComTracking => Some "p_com_tracking_"
  | PlannerDoubleParam_WeightJointReg => Some "w_joint_regularization_"
  | PlannerDoubleParam_PGainOrientationTracking => Some "reg_orientation_"
  | PlannerDoubleParam_PGainPositionTracking => Some "reg_joint_position_"
  | PlannerDoubleParam_SwingTrajViaZ_Second => Some "swing_traj_via_z_second_"
  | PlannerDoubleParam_WeightLinMomentumTracking_Second => Some "w_lin_mom_tracking_second_"
  | PlannerDoubleParam_WeightAngMomentumTracking_Second => Some "w_ang_mom_tracking_second_"
  | PlannerDoubleParam_WeightEndEffContact_Second => Some "w_endeff_contact_second_"
  | PlannerDoubleParam_WeightEndEffTracking_Second => Some "w_endeff_tracking_second_"
  | PlannerDoubleParam_PGainEndEffTracking_Second => Some "p_endeff_tracking_second_"
  | PlannerDoubleParam_PGainComTracking_Second => Some "p_com_tracking_second_"
  | _ => None
  end.
Definition planner_write_PlannerStringParam (p : PlannerStringParam) : option string :=
  match p with
  | PlannerStringParam_ConfigFile => Some "cfg_file_"
  | PlannerStringParam_SaveDynamicsFile => Some "save_dynamics_file_"
  | PlannerStringParam_SaveKinematicsFile => Some "save_kinematics_file_"
  | PlannerStringParam_DefaultSolverSettingFile => Some "default_solver_setting_file_"
  end.
Definition planner_write_PlannerIntVectorParam (p : PlannerIntVectorParam) : option string :=
  match p with
  | PlannerIntVectorParam_ActiveDofs => Some "active_dofs_"
  | PlannerIntVectorParam_ExtendedActiveDofs => Some "extended_active_dofs_"
  end.
Definition planner_write_PlannerVectorParam (p : PlannerVectorParam) : option string :=
  match p with
  | PlannerVectorParam_TimeRange => Some "time_range_"
  | PlannerVectorParam_TorqueRange => Some "torque_range_"
  | PlannerVectorParam_ExternalForce => Some "external_force_"
  | PlannerVectorParam_GravityVector => Some "gravity_vector_"
  | PlannerVectorParam_CenterOfMassMotion => Some "com_displacement_"
  | PlannerVectorParam_MaxEndeffectorLengths => Some "max_eef_lengths_"
  | PlannerVectorParam_WeightArmForce => Some "w_frc_arm_"
  | PlannerVectorParam_WeightLegForce => Some "w_frc_leg_"
  | PlannerVectorParam_WeightArmForceRate => Some "w_dfrc_arm_"
  | PlannerVectorParam_WeightLegForceRate => Some "w_dfrc_leg_"
  | PlannerVectorParam_WeightCenterOfMass => Some "w_com_"
  | PlannerVectorParam_WeightLinearMomentum => Some "w_lmom_"
  | PlannerVectorParam_WeightAngularMomentum => Some "w_amom_"
  | PlannerVectorParam_WeightLinearMomentumRate => Some "w_lmomd_"
  | PlannerVectorParam_WeightAngularMomentumRate => Some "w_amomd_"
  | PlannerVectorParam_WeightFinalLinearMomentum => Some "w_lmom_final_"
  | PlannerVectorParam_WeightCenterOfMassViapoint => Some "w_com_via_"
  | PlannerVectorParam_WeightFinalAngularMomentum => Some "w_amom_final_"
  | PlannerVectorParam_WeightDynamicTrackingCenterOfMass => Some "w_com_track_"
  | PlannerVectorParam_WeightDynamicTrackingLinearMomentum => Some "w_lmom_track_"
  | PlannerVectorParam_WeightDynamicTrackingAngularMomentum => Some "w_amom_track_"
  | PlannerVectorParam_MinJointAngles => Some "min_joint_limits_"
  | PlannerVectorParam_MaxJointAngles => Some "max_joint_limits_"
  | PlannerVectorParam_KinematicDefaultJointPositions => Some "default_joint_positions_"
  | PlannerVectorParam_WeightJointVelocity => Some "w_kin_joint_vel_"
  | PlannerVectorParam_WeightJointAcceleration => Some "w_kin_joint_acc_"
  | PlannerVectorParam_WeightKinematicTrackingCenterOfMass => Some "w_kin_com_"
  | PlannerVectorParam_WeightKinematicDefaultJointPositions => Some "w_kin_default_joints_"
  | PlannerVectorParam_WeightKinematicTrackingLinearMomentum => Some "w_kin_lmom_"
  | PlannerVectorParam_WeightKinematicTrackingAngularMomentum => Some "w_kin_amom_"
  | PlannerVectorParam_WeightKinematicTrackingBaseOrientation => Some "w_kin_base_ori_"
  | PlannerVectorParam_WeightKinematicTrackingLinearMomentumRate => Some "w_kin_lmomd_"
  | PlannerVectorParam_WeightKinematicTrackingAngularMomentumRate => Some "w_kin_amomd_"
  | PlannerVectorParam_WeightKinematicTrackingEndeffectorPosition => Some "w_kin_eff_pos_"
  | PlannerVectorParam_WeightKinematicTrackingNonActiveEndeffectorPosition => Some "w_kin_eff_pos_nonact_"
  | PlannerVectorParam_PGainMomentumTracking_Second => Some "p_mom_tracking_second_"
  end.
Definition planner_write_PlannerArrayParam (p : PlannerArrayParam) : option string :=
  match p with
  | PlannerArrayParam_EndeffectorOffset => Some "eff_offset_"
  | PlannerArrayParam_CenterOfPressureRange => Some "cop_range_"
  end.
Definition planner_write_PlannerCVectorParam (p : PlannerCVectorParam) : option string :=
  match p with
  | PlannerCVectorParam_Viapoints => Some "com_viapoints_"
  | PlannerCVectorParam_JointViapoints => Some "joint_viapoints_"
  | PlannerCVectorParam_BaseViapoints => Some "base_viapoints_"
  | PlannerCVectorParam_JointViapoints_Second => Some "joint_viapoints_second_"
  | PlannerCVectorParam_BaseViapoints_Second => Some "base_viapoints_second_"
  end.
Inductive sguard := Always | Kin | TimeOpt | Second | First.
(** One step of the file reader: a parameter (guard, type, key, member), a list of via points (guard, member with the number, node, member), the four entries of an array
    (key prefix, member), and the three steps written out in StgModel. *)
Inductive sstep := Read (g : sguard) (t : stype) (key field : string) | ReadVias (g : sguard) (num node field : string) | ReadEff (prefix field : string) | ExtendedDofs | ReadHeuristic | ReadFriction.
Definition planner_file : list sstep := [
  Read Always Tbool "load_kinematics" "load_kinematics_";
  Read Kin Tint "num_dofs" "num_dofs_";
  Read Kin Tint "kd_iterations" "kd_iterations_";
  Read Kin Tint "num_subsamples" "num_subsamples_";
  Read Kin Tbool "display_motion" "display_motion_";
  Read Kin Tvector "min_joint_limits" "min_joint_limits_";
  Read Kin Tvector "max_joint_limits" "max_joint_limits_";
  Read Kin Tvector "default_joint_positions" "default_joint_positions_";
  Read Kin Tivector "active_dofs" "active_dofs_";
  ExtendedDofs;
  Read Always Tint "num_com_viapoints" "num_com_viapoints_";
  ReadVias Always "num_com_viapoints_" "com_viapoints" "com_viapoints_";
  Read Always Tdouble "time_step" "time_step_";
  Read Always Tint "n_act_eefs" "num_act_eefs_";
  Read Always Tdouble "time_horizon" "time_horizon_";
  Read Always Tdouble "min_rel_height" "min_rel_height_";
  Read Always Tvector "external_force" "external_force_";
  Read Always Tvector "com_displacement" "com_displacement_";
  ReadHeuristic;
  Read TimeOpt Tint "max_time_iterations" "max_time_iterations_";
  Read TimeOpt Tdouble "max_time_residual_tolerance" "max_time_residual_tolerance_";
  Read TimeOpt Tdouble "min_time_residual_improvement" "min_time_residual_improvement_";
  Read Always Tdouble "gravity" "gravity_";
  Read Always Tdouble "robot_mass" "robot_mass_";
  Read Always Tdouble "floor_height" "floor_height_";
  Read Always Tvector "torque_range" "torque_range_";
  Read Always Tdouble "friction_coeff" "friction_coeff_";
  Read Always Tvector "max_eef_lengths" "max_eef_lengths_";
  Read TimeOpt Tvector "time_range" "time_range_";
  Read TimeOpt Tbool "is_time_horizon_fixed" "is_time_horizon_fixed_";
  ReadEff "cop_range_" "cop_range_";
  ReadEff "eff_offset_" "eff_offset_";
  ReadFriction;
  Read Always Tvector "w_com" "w_com_";
  Read Always Tvector "w_amom" "w_amom_";
  Read Always Tvector "w_lmom" "w_lmom_";
  Read Always Tvector "w_amomd" "w_amomd_";
  Read Always Tvector "w_lmomd" "w_lmomd_";
  Read Always Tvector "w_com_via" "w_com_via_";
  Read Always Tdouble "w_trq_arm" "w_trq_arm_";
  Read Always Tdouble "w_trq_leg" "w_trq_leg_";
  Read Always Tvector "w_frc_arm" "w_frc_arm_";
  Read Always Tvector "w_frc_leg" "w_frc_leg_";
  Read Always Tvector "w_dfrc_arm" "w_dfrc_arm_";
  Read Always Tvector "w_dfrc_leg" "w_dfrc_leg_";
  Read Always Tvector "w_amom_final" "w_amom_final_";
  Read Always Tvector "w_lmom_final" "w_lmom_final_";
  Read Always Tvector "w_com_track" "w_com_track_";
  Read Always Tvector "w_lmom_track" "w_lmom_track_";
  Read Always Tvector "w_amom_track" "w_amom_track_";
  Read TimeOpt Tdouble "w_time" "w_time_";
  Read TimeOpt Tdouble "w_time_penalty" "w_time_penalty_";
  Read Kin Tvector "w_kin_com" "w_kin_com_";
  Read Kin Tvector "w_kin_lmom" "w_kin_lmom_";
  Read Kin Tvector "w_kin_amom" "w_kin_amom_";
  Read Kin Tvector "w_kin_lmomd" "w_kin_lmomd_";
  Read Kin Tvector "w_kin_amomd" "w_kin_amomd_";
  Read Kin Tvector "w_kin_eff_pos" "w_kin_eff_pos_";
  Read Kin Tvector "w_kin_base_ori" "w_kin_base_ori_";
  Read Kin Tvector "w_kin_joint_vel" "w_kin_joint_vel_";
  Read Kin Tvector "w_kin_joint_acc" "w_kin_joint_acc_";
  Read Kin Tdouble "slacks_penalty" "kin_slacks_penalty_";
  Read Kin Tdouble "integration_step" "kin_integration_step_";
  Read Kin Tvector "w_kin_eff_pos_nonact" "w_kin_eff_pos_nonact_";
  Read Kin Tvector "w_kin_default_joints" "w_kin_default_joints_";
  Read Kin Tint "max_trajectory_iters" "max_trajectory_iters_";
  Read Kin Tint "max_convergence_iters" "max_convergence_iters_";
  Read Kin Tdouble "convergence_tolerance" "convergence_tolerance_";
  Read Kin Tdouble "lambda_regularization" "lambda_regularization_";
  Read Kin Tbool "use_second_order_inv_kin" "use_second_order_inv_kin_";
  Read Second Tdouble "swing_traj_via_z_second" "swing_traj_via_z_second_";
  Read Second Tdouble "w_lin_mom_tracking_second" "w_lin_mom_tracking_second_";
  Read Second Tdouble "w_ang_mom_tracking_second" "w_ang_mom_tracking_second_";
  Read Second Tdouble "w_endeff_contact_second" "w_endeff_contact_second_";
  Read Second Tdouble "w_endeff_tracking_second" "w_endeff_tracking_second_";
  Read Second Tdouble "p_endeff_tracking_second" "p_endeff_tracking_second_";
  Read Second Tdouble "p_com_tracking_second" "p_com_tracking_second_";
  Read Second Tdouble "w_joint_regularization_second" "w_joint_regularization_second_";
  Read Second Tdouble "d_endeff_tracking_second" "d_endeff_tracking_second_";
  Read Second Tdouble "p_orient_tracking_second" "p_orient_tracking_second_";
  Read Second Tdouble "d_orient_tracking_second" "d_orient_tracking_second_";
  Read Second Tdouble "p_joint_regularization_second" "p_joint_regularization_second_";
  Read Second Tdouble "d_joint_regularization_second" "d_joint_regularization_second_";
  Read Second Tvector "p_mom_tracking_second" "p_mom_tracking_second_";
  Read Second Tint "num_joint_viapoints_second" "num_joint_viapoints_second_";
  Read Second Tint "num_base_viapoints_second" "num_base_viapoints_second_";
  Read First Tdouble "swing_traj_via_z" "swing_traj_via_z_";
  Read First Tdouble "w_lin_mom_tracking" "w_lin_mom_tracking_";
  Read First Tdouble "w_ang_mom_tracking" "w_ang_mom_tracking_";
  Read First Tdouble "w_endeff_contact" "w_endeff_contact_";
  Read First Tdouble "w_endeff_tracking" "w_endeff_tracking_";
  Read First Tdouble "p_endeff_tracking" "p_endeff_tracking_";
  Read First Tdouble "p_com_tracking" "p_com_tracking_";
  Read First Tdouble "w_joint_regularization" "w_joint_regularization_";
  Read First Tdouble "reg_orientation" "reg_orientation_";
  Read First Tdouble "reg_joint_position" "reg_joint_position_";
  Read First Tint "num_joint_viapoints" "num_joint_viapoints_";
  Read First Tint "num_base_viapoints" "num_base_viapoints_";
  ReadVias Second "num_joint_viapoints_second_" "joint_viapoints_second" "joint_viapoints_second_";
  ReadVias Second "num_base_viapoints_second_" "base_viapoints_second" "base_viapoints_second_";
  ReadVias First "num_joint_viapoints_" "joint_viapoints" "joint_viapoints_";
  ReadVias First "num_base_viapoints_" "base_viapoints" "base_viapoints_";
  Read Always Tbool "store_data" "store_data_";
  Read Always Tbool "use_default_solver_setting" "use_default_solver_setting_"].
(** Types of the members, PlannerSetting.hpp l.53-105; Eigen vectors of fixed and dynamic size alike. *)
Definition planner_members : list (string * stype) := [
  ("cfg_file_", Tstring);
  ("save_dynamics_file_", Tstring);
  ("save_kinematics_file_", Tstring);
  ("default_solver_setting_file_", Tstring);
  ("num_com_viapoints_", Tint);
  ("num_joint_viapoints_", Tint);
  ("num_base_viapoints_", Tint);
  ("num_joint_viapoints_second_", Tint);
  ("num_base_viapoints_second_", Tint);
  ("num_act_eefs_", Tint);
  ("num_timesteps_", Tint);
  ("max_time_iterations_", Tint);
  ("num_dofs_", Tint);
  ("num_act_dofs_", Tint);
  ("num_extended_act_dofs_", Tint);
  ("max_convergence_iters_", Tint);
  ("num_subsamples_", Tint);
  ("kd_iterations_", Tint);
  ("max_trajectory_iters_", Tint);
  ("store_data_", Tbool);
  ("is_time_horizon_fixed_", Tbool);
  ("is_friction_cone_linear_", Tbool);
  ("use_default_solver_setting_", Tbool);
  ("load_kinematics_", Tbool);
  ("display_motion_", Tbool);
  ("use_second_order_inv_kin_", Tbool);
  ("gravity_", Tdouble);
  ("time_step_", Tdouble);
  ("robot_mass_", Tdouble);
  ("time_horizon_", Tdouble);
  ("friction_coeff_", Tdouble);
  ("max_time_residual_tolerance_", Tdouble);
  ("min_time_residual_improvement_", Tdouble);
  ("mass_times_gravity_", Tdouble);
  ("w_trq_arm_", Tdouble);
  ("w_trq_leg_", Tdouble);
  ("w_time_penalty_", Tdouble);
  ("w_time_", Tdouble);
  ("convergence_tolerance_", Tdouble);
  ("min_rel_height_", Tdouble);
  ("floor_height_", Tdouble);
  ("kin_integration_step_", Tdouble);
  ("kin_slacks_penalty_", Tdouble);
  ("lambda_regularization_", Tdouble);
  ("swing_traj_via_z_", Tdouble);
  ("w_lin_mom_tracking_", Tdouble);
  ("w_ang_mom_tracking_", Tdouble);
  ("w_endeff_contact_", Tdouble);
  ("w_endeff_tracking_", Tdouble);
  ("p_endeff_tracking_", Tdouble);
  ("p_com_tracking_", Tdouble);
  ("w_joint_regularization_", Tdouble);
  ("reg_orientation_", Tdouble);
  ("reg_joint_position_", Tdouble);
  ("swing_traj_via_z_second_", Tdouble);
  ("w_lin_mom_tracking_second_", Tdouble);
  ("w_ang_mom_tracking_second_", Tdouble);
  ("w_endeff_contact_second_", Tdouble);
  ("w_endeff_tracking_second_", Tdouble);
  ("p_endeff_tracking_second_", Tdouble);
  ("p_com_tracking_second_", Tdouble);
  ("w_joint_regularization_second_", Tdouble);
  ("d_endeff_tracking_second_", Tdouble);
  ("p_orient_tracking_second_", Tdouble);
  ("d_orient_tracking_second_", Tdouble);
  ("p_joint_regularization_second_", Tdouble);
  ("d_joint_regularization_second_", Tdouble);
  ("time_range_", Tvector);
  ("torque_range_", Tvector);
  ("external_force_", Tvector);
  ("com_displacement_", Tvector);
  ("w_com_", Tvector);
  ("w_lmom_", Tvector);
  ("w_lmomd_", Tvector);
  ("w_lmom_final_", Tvector);
  ("w_amom_", Tvector);
  ("w_amomd_", Tvector);
  ("w_amom_final_", Tvector);
  ("w_com_via_", Tvector);
  ("w_frc_arm_", Tvector);
  ("w_frc_leg_", Tvector);
  ("w_dfrc_arm_", Tvector);
  ("w_dfrc_leg_", Tvector);
  ("gravity_vector_", Tvector);
  ("w_com_track_", Tvector);
  ("w_lmom_track_", Tvector);
  ("w_amom_track_", Tvector);
  ("w_kin_base_ori_", Tvector);
  ("w_kin_com_", Tvector);
  ("w_kin_lmom_", Tvector);
  ("w_kin_amom_", Tvector);
  ("w_kin_lmomd_", Tvector);
  ("w_kin_amomd_", Tvector);
  ("w_kin_eff_pos_", Tvector);
  ("w_kin_eff_pos_nonact_", Tvector);
  ("default_joint_positions_", Tvector);
  ("w_kin_default_joints_", Tvector);
  ("w_kin_joint_vel_", Tvector);
  ("w_kin_joint_acc_", Tvector);
  ("min_joint_limits_", Tvector);
  ("max_joint_limits_", Tvector);
  ("p_mom_tracking_second_", Tvector);
  ("active_dofs_", Tivector);
  ("extended_active_dofs_", Tivector);
  ("max_eef_lengths_", Tvector)].
