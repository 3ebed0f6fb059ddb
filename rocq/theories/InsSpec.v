(** * Specification: which entry of the configuration file configures which attribute (C94) *)
From Coq Require Import String List Bool.
Import ListNotations.
From Verif Require Import StgTables StgModel StgSpec InsModel.
Local Open Scope string_scope.

(** Attributes take the entry of their own name (with _second for second order inverse kinematics), except the height of the swing and the numbers of via points. *)
Definition wanted_second : list (pobj * string * doc) :=
  [(OEtg, "z_offset", DKey Second Tdouble "swing_traj_via_z_second");
   (OSo, "w_lin_mom_tracking", DKey Second Tdouble "w_lin_mom_tracking_second");
   (OSo, "w_ang_mom_tracking", DKey Second Tdouble "w_ang_mom_tracking_second");
   (OSo, "w_endeff_contact", DKey Second Tdouble "w_endeff_contact_second");
   (OSo, "w_endeff_tracking", DKey Second Tdouble "w_endeff_tracking_second");
   (OSo, "w_joint_regularization", DKey Second Tdouble "w_joint_regularization_second");
   (OSo, "p_endeff_tracking", DKey Second Tdouble "p_endeff_tracking_second");
   (OSo, "p_com_tracking", DKey Second Tdouble "p_com_tracking_second");
   (OKin, "n_via_joint", DKey Second Tint "num_joint_viapoints_second");
   (OKin, "via_joint", DVias Second "num_joint_viapoints_second" "joint_viapoints_second");
   (OKin, "n_via_base", DKey Second Tint "num_base_viapoints_second");
   (OKin, "via_base", DVias Second "num_base_viapoints_second" "base_viapoints_second");
   (OSo, "d_endeff_tracking", DKey Second Tdouble "d_endeff_tracking_second");
   (OSo, "p_orient_tracking", DKey Second Tdouble "p_orient_tracking_second");
   (OSo, "d_orient_tracking", DKey Second Tdouble "d_orient_tracking_second");
   (OSo, "p_joint_regularization", DKey Second Tdouble "p_joint_regularization_second");
   (OSo, "d_joint_regularization", DKey Second Tdouble "d_joint_regularization_second");
   (OSo, "p_mom_tracking", DKey Second Tvector "p_mom_tracking_second")].
Definition wanted_first : list (pobj * string * doc) :=
  [(OEtg, "z_offset", DKey First Tdouble "swing_traj_via_z");
   (OIk, "w_lin_mom_tracking", DKey First Tdouble "w_lin_mom_tracking");
   (OIk, "w_ang_mom_tracking", DKey First Tdouble "w_ang_mom_tracking");
   (OIk, "w_endeff_contact", DKey First Tdouble "w_endeff_contact");
   (OIk, "w_endeff_tracking", DKey First Tdouble "w_endeff_tracking");
   (OIk, "w_joint_regularization", DKey First Tdouble "w_joint_regularization");
   (OIk, "p_endeff_tracking", DKey First Tdouble "p_endeff_tracking");
   (OIk, "p_com_tracking", DKey First Tdouble "p_com_tracking");
   (OKin, "reg_orientation", DKey First Tdouble "reg_orientation");
   (OKin, "reg_joint_position", DKey First Tdouble "reg_joint_position");
   (OKin, "n_via_joint", DKey First Tint "num_joint_viapoints");
   (OKin, "via_joint", DVias First "num_joint_viapoints" "joint_viapoints");
   (OKin, "n_via_base", DKey First Tint "num_base_viapoints");
   (OKin, "via_base", DVias First "num_base_viapoints" "base_viapoints")].
Definition wanted (second : bool) : list (pobj * string * doc) := if second then wanted_second else wanted_first.
