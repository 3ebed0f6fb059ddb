(** * Specification: what the parameters mean
    Tables from the names of the parameters to the keys of the configuration files, checked by hand against the names and the shipped configuration files (momentumopt/config/cfg_*.yaml,
    default_solver_setting.yaml), and the rules for derived parameters. *)
From Coq Require Import Reals List Arith ZArith Bool String.
Import ListNotations.
From Verif Require Import Base StgTables StgModel.
Local Open Scope string_scope.

(** ** Solver settings: the key of a parameter; None is a parameter that is not a setting. *)
Definition solver_doc (p : solver_param) : option (stype * string) :=
  match p with
  | SPB SolverBoolParam_Verbose => Some (Tbool, "verbose")
  | SPB SolverBoolParam_BnBVerbose => Some (Tbool, "BnB_verbose")
  | SPI SolverIntParam_BnBMaxIters => Some (Tint, "BnB_max_iterations")
  | SPI SolverIntParam_EquilibrationIters => Some (Tint, "equil_iterations")
  | SPI SolverIntParam_NumIterRefinementsLinSolve => Some (Tint, "num_iter_ref_lin_solve")
  | SPI SolverIntParam_MaxIters => Some (Tint, "max_iters")
  | SPI SolverIntParam_WarmStartIters => Some (Tint, "ipsolver_warm_iters")
  | SPI SolverIntParam_SolverMaxIters => Some (Tint, "ipsolver_max_iters")
  | SPI SolverIntParam_NumberRefinementsTrustRegion => Some (Tint, "num_itrefs_trustregion")
  | SPD SolverDoubleParam_BnBIntegerTol => Some (Tdouble, "BnB_integer_tolerance")
  | SPD SolverDoubleParam_BnBAbsSubOptGap => Some (Tdouble, "BnB_absolute_suboptimality_gap")
  | SPD SolverDoubleParam_BnBRelSubOptGap => Some (Tdouble, "BnB_relative_suboptimality_gap")
  | SPD SolverDoubleParam_FeasibilityTol => Some (Tdouble, "feasibility_tolerance")
  | SPD SolverDoubleParam_DualityGapAbsTol => Some (Tdouble, "absolute_suboptimality_gap")
  | SPD SolverDoubleParam_DualityGapRelTol => Some (Tdouble, "relative_suboptimality_gap")
  | SPD SolverDoubleParam_FeasibilityTolInacc => Some (Tdouble, "feasibility_tolerance_inaccurate")
  | SPD SolverDoubleParam_DualityGapAbsTolInacc => Some (Tdouble, "absolute_suboptimality_gap_inaccurate")
  | SPD SolverDoubleParam_DualityGapRelTolInacc => Some (Tdouble, "relative_suboptimality_gap_inaccurate")
  | SPD SolverDoubleParam_LinearSystemAccuracy => Some (Tdouble, "lin_sys_accuracy")
  | SPD SolverDoubleParam_ErrorReductionFactor => Some (Tdouble, "err_reduction_factor")
  | SPD SolverDoubleParam_StaticRegularization => Some (Tdouble, "static_regularization")
  | SPD SolverDoubleParam_DynamicRegularization => Some (Tdouble, "dynamic_regularization")
  | SPD SolverDoubleParam_DynamicRegularizationThresh => Some (Tdouble, "dyn_reg_thresh")
  | SPD SolverDoubleParam_SafeGuard => Some (Tdouble, "safeguard")
  | SPD SolverDoubleParam_MinimumStepLength => Some (Tdouble, "min_step_length")
  | SPD SolverDoubleParam_MaximumStepLength => Some (Tdouble, "max_step_length")
  | SPD SolverDoubleParam_StepLengthScaling => Some (Tdouble, "step_length_scaling")
  | SPD SolverDoubleParam_MinimumCenteringStep => Some (Tdouble, "min_centering_step")
  | SPD SolverDoubleParam_MaximumCenteringStep => Some (Tdouble, "max_centering_step")
  | SPD SolverDoubleParam_TrustRegionThreshold => Some (Tdouble, "trust_region_threshold")
  | SPD SolverDoubleParam_SoftConstraintWeightFull => Some (Tdouble, "soft_constraint_weight_full")
  | SPD SolverDoubleParam_SoftConstraintWeightReduced => Some (Tdouble, "soft_constraint_weight_reduced")
  | _ => None
  end.

(** Every documented key is in the file with its type. *)
Definition solver_file_complete (y : yaml) : Prop := forall p t k, solver_doc p = Some (t, k) -> ylook y t k <> None.
(** Histories of writes. *)
Inductive solver_hist : store -> list (solver_param * sval) -> store -> Prop :=
| sh_nil : forall s, solver_hist s [] s
| sh_set : forall s p v s1 l s2, solver_set p v s = Ok s1 -> solver_hist s1 l s2 -> solver_hist s ((p, v) :: l) s2.
(** The last value written to p in a history. *)
Inductive last_write (p : solver_param) (v : sval) : list (solver_param * sval) -> Prop :=
| lw : forall l1 l2, (forall v', ~ In (p, v') l2) -> last_write p v (l1 ++ (p, v) :: l2).

(** ** Planner settings *)
(** A key read if a condition holds, a list of via points, one entry per end-effector, the friction cone, the degrees of freedom with the base, a derived value, a file name. *)
Inductive doc := DKey (g : sguard) (t : stype) (k : string) | DVias (g : sguard) (num node : string) | DEff (prefix : string) | DFriction | DExtended | DDerived | DName.
(** The documented source of each parameter. *)
Definition planner_doc (p : planner_param) : doc :=
  match p with
  | PPI PlannerIntParam_NumDofs => DKey Kin Tint "num_dofs"
  | PPI PlannerIntParam_NumTimesteps => DDerived
  | PPI PlannerIntParam_NumViapoints => DKey Always Tint "num_com_viapoints"
  | PPI PlannerIntParam_NumJointViapoints => DKey First Tint "num_joint_viapoints"
  | PPI PlannerIntParam_NumBaseViapoints => DKey First Tint "num_base_viapoints"
  | PPI PlannerIntParam_NumJointViapoints_Second => DKey Second Tint "num_joint_viapoints_second"
  | PPI PlannerIntParam_NumBaseViapoints_Second => DKey Second Tint "num_base_viapoints_second"
  | PPI PlannerIntParam_NumActiveDofs => DDerived
  | PPI PlannerIntParam_MaxNumTimeIterations => DKey TimeOpt Tint "max_time_iterations"
  | PPI PlannerIntParam_NumExtendedActiveDofs => DDerived
  | PPI PlannerIntParam_NumActiveEndeffectors => DKey Always Tint "n_act_eefs"
  | PPI PlannerIntParam_MaxKinTrajectoryIterations => DKey Kin Tint "max_trajectory_iters"
  | PPI PlannerIntParam_MaxKinConvergenceIterations => DKey Kin Tint "max_convergence_iters"
  | PPI PlannerIntParam_NumSubsamples => DKey Kin Tint "num_subsamples"
  | PPI PlannerIntParam_KinDynIterations => DKey Kin Tint "kd_iterations"
  | PPB PlannerBoolParam_IsTimeHorizonFixed => DKey TimeOpt Tbool "is_time_horizon_fixed"
  | PPB PlannerBoolParam_IsFrictionConeLinear => DFriction
  | PPB PlannerBoolParam_DisplayMotion => DKey Kin Tbool "display_motion"
  | PPB PlannerBoolParam_LoadKinematics => DKey Always Tbool "load_kinematics"
  | PPB PlannerBoolParam_StoreData => DKey Always Tbool "store_data"
  | PPB PlannerBoolParam_UseDefaultSolverSetting => DKey Always Tbool "use_default_solver_setting"
  | PPB PlannerBoolParam_UseSecondOrderInverseKinematics => DKey Kin Tbool "use_second_order_inv_kin"
  | PPD PlannerDoubleParam_Gravity => DKey Always Tdouble "gravity"
  | PPD PlannerDoubleParam_TimeStep => DKey Always Tdouble "time_step"
  | PPD PlannerDoubleParam_RobotMass => DKey Always Tdouble "robot_mass"
  | PPD PlannerDoubleParam_RobotWeight => DDerived
  | PPD PlannerDoubleParam_TimeHorizon => DKey Always Tdouble "time_horizon"
  | PPD PlannerDoubleParam_MinRelHeight => DKey Always Tdouble "min_rel_height"
  | PPD PlannerDoubleParam_MassTimesGravity => DDerived
  | PPD PlannerDoubleParam_FrictionCoefficient => DKey Always Tdouble "friction_coeff"
  | PPD PlannerDoubleParam_MaxTimeResidualTolerance => DKey TimeOpt Tdouble "max_time_residual_tolerance"
  | PPD PlannerDoubleParam_MinTimeResidualImprovement => DKey TimeOpt Tdouble "min_time_residual_improvement"
  | PPD PlannerDoubleParam_WeightArmTorque => DKey Always Tdouble "w_trq_arm"
  | PPD PlannerDoubleParam_WeightLegTorque => DKey Always Tdouble "w_trq_leg"
  | PPD PlannerDoubleParam_WeightTimePenalty => DKey TimeOpt Tdouble "w_time_penalty"
  | PPD PlannerDoubleParam_WeightTimeRegularization => DKey TimeOpt Tdouble "w_time"
  | PPD PlannerDoubleParam_FloorHeight => DKey Always Tdouble "floor_height"
  | PPD PlannerDoubleParam_KinSlacksPenalty => DKey Kin Tdouble "slacks_penalty"
  | PPD PlannerDoubleParam_KinIntegrationStep => DKey Kin Tdouble "integration_step"
  | PPD PlannerDoubleParam_LambdaRegularization => DKey Kin Tdouble "lambda_regularization"
  | PPD PlannerDoubleParam_KinConvergenceTolerance => DKey Kin Tdouble "convergence_tolerance"
  | PPD PlannerDoubleParam_SwingTrajViaZ => DKey First Tdouble "swing_traj_via_z"
  | PPD PlannerDoubleParam_WeightLinMomentumTracking => DKey First Tdouble "w_lin_mom_tracking"
  | PPD PlannerDoubleParam_WeightAngMomentumTracking => DKey First Tdouble "w_ang_mom_tracking"
  | PPD PlannerDoubleParam_WeightEndEffContact => DKey First Tdouble "w_endeff_contact"
  | PPD PlannerDoubleParam_WeightEndEffTracking => DKey First Tdouble "w_endeff_tracking"
  | PPD PlannerDoubleParam_PGainEndEffTracking => DKey First Tdouble "p_endeff_tracking"
  | PPD PlannerDoubleParam_PGainComTracking => DKey First Tdouble "p_com_tracking"
  | PPD PlannerDoubleParam_WeightJointReg => DKey First Tdouble "w_joint_regularization"
  | PPD PlannerDoubleParam_PGainOrientationTracking => DKey First Tdouble "reg_orientation"
  | PPD PlannerDoubleParam_PGainPositionTracking => DKey First Tdouble "reg_joint_position"
  | PPD PlannerDoubleParam_SwingTrajViaZ_Second => DKey Second Tdouble "swing_traj_via_z_second"
  | PPD PlannerDoubleParam_WeightLinMomentumTracking_Second => DKey Second Tdouble "w_lin_mom_tracking_second"
  | PPD PlannerDoubleParam_WeightAngMomentumTracking_Second => DKey Second Tdouble "w_ang_mom_tracking_second"
  | PPD PlannerDoubleParam_WeightEndEffContact_Second => DKey Second Tdouble "w_endeff_contact_second"
  | PPD PlannerDoubleParam_WeightEndEffTracking_Second => DKey Second Tdouble "w_endeff_tracking_second"
  | PPD PlannerDoubleParam_PGainEndEffTracking_Second => DKey Second Tdouble "p_endeff_tracking_second"
  | PPD PlannerDoubleParam_PGainComTracking_Second => DKey Second Tdouble "p_com_tracking_second"
  | PPD PlannerDoubleParam_WeightJointReg_Second => DKey Second Tdouble "w_joint_regularization_second"
  | PPD PlannerDoubleParam_DGainEndEffTracking_Second => DKey Second Tdouble "d_endeff_tracking_second"
  | PPD PlannerDoubleParam_PGainBaseOrientationTracking_Second => DKey Second Tdouble "p_orient_tracking_second"
  | PPD PlannerDoubleParam_DGainBaseOrientationTracking_Second => DKey Second Tdouble "d_orient_tracking_second"
  | PPD PlannerDoubleParam_PGainJointRegularization_Second => DKey Second Tdouble "p_joint_regularization_second"
  | PPD PlannerDoubleParam_DGainJointRegularization_Second => DKey Second Tdouble "d_joint_regularization_second"
  | PPS PlannerStringParam_ConfigFile => DName
  | PPS PlannerStringParam_SaveDynamicsFile => DName
  | PPS PlannerStringParam_SaveKinematicsFile => DName
  | PPS PlannerStringParam_DefaultSolverSettingFile => DName
  | PPIV PlannerIntVectorParam_ActiveDofs => DKey Kin Tivector "active_dofs"
  | PPIV PlannerIntVectorParam_ExtendedActiveDofs => DExtended
  | PPV PlannerVectorParam_TimeRange => DKey TimeOpt Tvector "time_range"
  | PPV PlannerVectorParam_TorqueRange => DKey Always Tvector "torque_range"
  | PPV PlannerVectorParam_ExternalForce => DKey Always Tvector "external_force"
  | PPV PlannerVectorParam_GravityVector => DDerived
  | PPV PlannerVectorParam_CenterOfMassMotion => DKey Always Tvector "com_displacement"
  | PPV PlannerVectorParam_MaxEndeffectorLengths => DKey Always Tvector "max_eef_lengths"
  | PPV PlannerVectorParam_WeightArmForce => DKey Always Tvector "w_frc_arm"
  | PPV PlannerVectorParam_WeightLegForce => DKey Always Tvector "w_frc_leg"
  | PPV PlannerVectorParam_WeightArmForceRate => DKey Always Tvector "w_dfrc_arm"
  | PPV PlannerVectorParam_WeightLegForceRate => DKey Always Tvector "w_dfrc_leg"
  | PPV PlannerVectorParam_WeightCenterOfMass => DKey Always Tvector "w_com"
  | PPV PlannerVectorParam_WeightLinearMomentum => DKey Always Tvector "w_lmom"
  | PPV PlannerVectorParam_WeightAngularMomentum => DKey Always Tvector "w_amom"
  | PPV PlannerVectorParam_WeightLinearMomentumRate => DKey Always Tvector "w_lmomd"
  | PPV PlannerVectorParam_WeightAngularMomentumRate => DKey Always Tvector "w_amomd"
  | PPV PlannerVectorParam_WeightFinalLinearMomentum => DKey Always Tvector "w_lmom_final"
  | PPV PlannerVectorParam_WeightCenterOfMassViapoint => DKey Always Tvector "w_com_via"
  | PPV PlannerVectorParam_WeightFinalAngularMomentum => DKey Always Tvector "w_amom_final"
  | PPV PlannerVectorParam_WeightDynamicTrackingCenterOfMass => DKey Always Tvector "w_com_track"
  | PPV PlannerVectorParam_WeightDynamicTrackingLinearMomentum => DKey Always Tvector "w_lmom_track"
  | PPV PlannerVectorParam_WeightDynamicTrackingAngularMomentum => DKey Always Tvector "w_amom_track"
  | PPV PlannerVectorParam_MinJointAngles => DKey Kin Tvector "min_joint_limits"
  | PPV PlannerVectorParam_MaxJointAngles => DKey Kin Tvector "max_joint_limits"
  | PPV PlannerVectorParam_KinematicDefaultJointPositions => DKey Kin Tvector "default_joint_positions"
  | PPV PlannerVectorParam_WeightJointVelocity => DKey Kin Tvector "w_kin_joint_vel"
  | PPV PlannerVectorParam_WeightJointAcceleration => DKey Kin Tvector "w_kin_joint_acc"
  | PPV PlannerVectorParam_WeightKinematicTrackingCenterOfMass => DKey Kin Tvector "w_kin_com"
  | PPV PlannerVectorParam_WeightKinematicDefaultJointPositions => DKey Kin Tvector "w_kin_default_joints"
  | PPV PlannerVectorParam_WeightKinematicTrackingLinearMomentum => DKey Kin Tvector "w_kin_lmom"
  | PPV PlannerVectorParam_WeightKinematicTrackingAngularMomentum => DKey Kin Tvector "w_kin_amom"
  | PPV PlannerVectorParam_WeightKinematicTrackingBaseOrientation => DKey Kin Tvector "w_kin_base_ori"
  | PPV PlannerVectorParam_WeightKinematicTrackingLinearMomentumRate => DKey Kin Tvector "w_kin_lmomd"
  | PPV PlannerVectorParam_WeightKinematicTrackingAngularMomentumRate => DKey Kin Tvector "w_kin_amomd"
  | PPV PlannerVectorParam_WeightKinematicTrackingEndeffectorPosition => DKey Kin Tvector "w_kin_eff_pos"
  | PPV PlannerVectorParam_WeightKinematicTrackingNonActiveEndeffectorPosition => DKey Kin Tvector "w_kin_eff_pos_nonact"
  | PPV PlannerVectorParam_PGainMomentumTracking_Second => DKey Second Tvector "p_mom_tracking_second"
  | PPA PlannerArrayParam_EndeffectorOffset => DEff "eff_offset_"
  | PPA PlannerArrayParam_CenterOfPressureRange => DEff "cop_range_"
  | PPC PlannerCVectorParam_Viapoints => DVias Always "num_com_viapoints" "com_viapoints"
  | PPC PlannerCVectorParam_JointViapoints => DVias First "num_joint_viapoints" "joint_viapoints"
  | PPC PlannerCVectorParam_BaseViapoints => DVias First "num_base_viapoints" "base_viapoints"
  | PPC PlannerCVectorParam_JointViapoints_Second => DVias Second "num_joint_viapoints_second" "joint_viapoints_second"
  | PPC PlannerCVectorParam_BaseViapoints_Second => DVias Second "num_base_viapoints_second" "base_viapoints_second"
  end.

(** The conditions, as functions of the file. *)
Definition with_kinematics (y : yaml) : bool := match y_bool y "load_kinematics" with Some b => b | None => false end.
Definition with_second_order (y : yaml) : bool := match y_bool y "use_second_order_inv_kin" with Some b => b | None => false end.
Definition with_time_opt (y : yaml) : bool := match y_string y "heuristic" with Some h => String.eqb h "TimeOptimization" | None => false end.
Definition applies (y : yaml) (g : sguard) : bool :=
  match g with
  | Always => true
  | Kin => with_kinematics y
  | TimeOpt => with_time_opt y
  | Second => with_kinematics y && with_second_order y
  | First => with_kinematics y && negb (with_second_order y)
  end.
(** The list of the values if there are all. *)
Fixpoint all_some {A} (l : list (option A)) : option (list A) := match l with [] => Some [] | Some a :: r => option_map (cons a) (all_some r) | None :: _ => None end.
(** The value the file gives to a parameter; None is an entry that is missing or of the wrong type. *)
Definition file_value (y : yaml) (d : doc) : option sval :=
  match d with
  | DKey _ t k => ylook y t k
  | DVias _ num node => match y_int y num with Some n => option_map VC (all_some (map (y_via y node) (seq 0 (Z.to_nat n)))) | None => None end
  | DEff prefix => match y_vector y (prefix ++ "rf"), y_vector y (prefix ++ "lf"), y_vector y (prefix ++ "rh"), y_vector y (prefix ++ "lh") with Some a, Some b, Some c, Some d => Some (VA [a; b; c; d]) | _, _, _, _ => None end
  | DFriction => option_map (fun h => VB (String.eqb h "LinearCone")) (y_string y "friction_cone")
  | DExtended => option_map (fun a => VIV ([0; 1; 2; 3; 4; 5]%Z ++ map (Z.add 6) a)) (y_ivector y "active_dofs")
  | DDerived | DName => None
  end.
Definition from_file (y : yaml) (d : doc) : bool :=
  match d with DKey g _ _ | DVias g _ _ => applies y g | DEff _ | DFriction => true | DExtended => with_kinematics y | DDerived | DName => false end.
(** The file has every entry it has to have. *)
Definition planner_file_complete (y : yaml) : Prop := y_string y "heuristic" <> None /\ forall p, from_file y (planner_doc p) = true -> file_value y (planner_doc p) <> None.
