(** * Model of MotionPlanner.init_from_settings
    Source: momentumopt/python/momentumopt/motion_planner.py l.74-118.
    The objects it configures are maps from attribute names to values (kin_optimizer, its inv_kin, snd_order_inv_kin and endeff_traj_generator); reading a
    parameter of the PlannerSetting is [planner_get] of StgModel.  Not modelled: the printed messages. *)
From Coq Require Import String Reals List Arith ZArith Bool.
Import ListNotations.
From Verif Require Import Base StgTables StgModel.
Local Open Scope string_scope.

Inductive pobj := OKin | OIk | OSo | OEtg.
Definition pobj_eqb (a b : pobj) : bool := match a, b with OKin, OKin | OIk, OIk | OSo, OSo | OEtg, OEtg => true | _, _ => false end.
Definition attrs := pobj -> string -> option sval.
Definition set_attr (a : attrs) (o : pobj) (n : string) (v : sval) : attrs := fun o' n' => if (pobj_eqb o' o && String.eqb n' n)%bool then Some v else a o' n'.
(** The assignments with second order inverse kinematics, l.83-101 *)
Definition assign_second : list (pobj * string * planner_param) :=
  [(OEtg, "z_offset", PPD PlannerDoubleParam_SwingTrajViaZ_Second);
   (OSo, "w_lin_mom_tracking", PPD PlannerDoubleParam_WeightLinMomentumTracking_Second);
   (OSo, "w_ang_mom_tracking", PPD PlannerDoubleParam_WeightAngMomentumTracking_Second);
   (OSo, "w_endeff_contact", PPD PlannerDoubleParam_WeightEndEffContact_Second);
   (OSo, "w_endeff_tracking", PPD PlannerDoubleParam_WeightEndEffTracking_Second);
   (OSo, "w_joint_regularization", PPD PlannerDoubleParam_WeightJointReg_Second);
   (OSo, "p_endeff_tracking", PPD PlannerDoubleParam_PGainEndEffTracking_Second);
   (OSo, "p_com_tracking", PPD PlannerDoubleParam_PGainComTracking_Second);
   (OKin, "n_via_joint", PPI PlannerIntParam_NumJointViapoints_Second);
   (OKin, "via_joint", PPC PlannerCVectorParam_JointViapoints_Second);
   (OKin, "n_via_base", PPI PlannerIntParam_NumBaseViapoints_Second);
   (OKin, "via_base", PPC PlannerCVectorParam_BaseViapoints_Second);
   (OSo, "d_endeff_tracking", PPD PlannerDoubleParam_DGainEndEffTracking_Second);
   (OSo, "p_orient_tracking", PPD PlannerDoubleParam_PGainBaseOrientationTracking_Second);
   (OSo, "d_orient_tracking", PPD PlannerDoubleParam_DGainBaseOrientationTracking_Second);
   (OSo, "p_joint_regularization", PPD PlannerDoubleParam_PGainJointRegularization_Second);
   (OSo, "d_joint_regularization", PPD PlannerDoubleParam_DGainJointRegularization_Second);
   (OSo, "p_mom_tracking", PPV PlannerVectorParam_PGainMomentumTracking_Second)].
(** and with first order inverse kinematics, l.105-118 *)
Definition assign_first : list (pobj * string * planner_param) :=
  [(OEtg, "z_offset", PPD PlannerDoubleParam_SwingTrajViaZ);
   (OIk, "w_lin_mom_tracking", PPD PlannerDoubleParam_WeightLinMomentumTracking);
   (OIk, "w_ang_mom_tracking", PPD PlannerDoubleParam_WeightAngMomentumTracking);
   (OIk, "w_endeff_contact", PPD PlannerDoubleParam_WeightEndEffContact);
   (OIk, "w_endeff_tracking", PPD PlannerDoubleParam_WeightEndEffTracking);
   (OIk, "w_joint_regularization", PPD PlannerDoubleParam_WeightJointReg);
   (OIk, "p_endeff_tracking", PPD PlannerDoubleParam_PGainEndEffTracking);
   (OIk, "p_com_tracking", PPD PlannerDoubleParam_PGainComTracking);
   (OKin, "reg_orientation", PPD PlannerDoubleParam_PGainOrientationTracking);
   (OKin, "reg_joint_position", PPD PlannerDoubleParam_PGainPositionTracking);
   (OKin, "n_via_joint", PPI PlannerIntParam_NumJointViapoints);
   (OKin, "via_joint", PPC PlannerCVectorParam_JointViapoints);
   (OKin, "n_via_base", PPI PlannerIntParam_NumBaseViapoints);
   (OKin, "via_base", PPC PlannerCVectorParam_BaseViapoints)].
Fixpoint assign (l : list (pobj * string * planner_param)) (s : store) (a : attrs) : res attrs :=
  match l with [] => Ok a | (o, n, p) :: r => bind (planner_get p s) (fun v => assign r s (set_attr a o n v)) end.
(** l.74-80: the flag is stored in the kinematics optimizer and read back *)
Definition init_from_settings (s : store) (a : attrs) : res attrs :=
  bind (planner_get (PPB PlannerBoolParam_UseSecondOrderInverseKinematics) s) (fun v =>
  let a1 := set_attr a OKin "use_second_order_inv_kin" v in
  match v with VB true => assign assign_second s a1 | VB false => assign assign_first s a1 | _ => Throw end).
