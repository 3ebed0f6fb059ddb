(** * Model of the Pinocchio implementation of the kinematics interface (Python) on top of the pybind11 class
    Sources: momentumopt/python/momentumopt/PinocchioKinematicsInterface.py l.20-105, momentumopt/srcpy/momentumopt/kinopt/PyKinematics.cpp l.26-97,
    momentumopt/src/momentumopt/kinopt/KinematicsInterface.cpp l.14-32, momentumopt/include/momentumopt/kinopt/KinematicsInterface.hpp.
    Attribute names are strings, as in Python.  Pinocchio (kinematics and dynamics of the robot) is a parameter; the placements of the frames are
    taken to be those of the configuration passed in.  Row i of a LOCAL frame Jacobian is computed from the rotation of the frame and the
    Jacobian expressed in world axes, J_local = R^T J_world.
    Not modelled: viewer, the reading of the URDF, sleep; matrices are functions with their number of rows. *)
From Coq Require Import Reals List Arith ZArith Bool String.
Import ListNotations.
From Verif Require Import Base Vec3 RbsModel.
Local Open Scope R_scope.
Local Open Scope string_scope.

(** ** Python values and outcomes *)
Inductive exn := TypeError | AttributeError | OtherError.
Inductive pyres (A : Type) := PVal (a : A) | PRaise (e : exn).
Arguments PVal {A}. Arguments PRaise {A}.
Definition pbind {A B} (x : pyres A) (f : A -> pyres B) : pyres B := match x with PVal a => f a | PRaise e => PRaise e end.
Record pmat := PMat { m_rows : nat; m_at : nat -> nat -> R }.
Inductive pyval := VArr (l : list R) | VMat (m : pmat) | VJacs (l : list pmat) | VBound (f : string).
(** Calling a value: only (bound) methods are callable; a numpy array is not. *)
Definition py_call (v : pyval) : pyres pyval := match v with VBound f => PVal (VBound f) | _ => PRaise TypeError end.

(** getattr of a RobotPosture object, PyKinematics.cpp l.32-38. *)
Definition posture_getattr (p : posture) (name : string) : pyres pyval :=
  if name =? "generalized_joint_positions" then match gen_pos p with Ok l => PVal (VArr l) | _ => PRaise OtherError end
  else if name =? "base_position" then PVal (VArr (l3 (po_pos p)))
  else if name =? "base_orientation" then PVal (VArr (py_base_ori p))
  else if name =? "joint_positions" then PVal (VArr (po_jnt p))
  else if name =? "__repr__" then PVal (VBound name)
  else PRaise AttributeError.

(** ** The interface object: members of the C++ class and the instance dictionary of the Python subclass *)
Record iface := IFace {
  if_cvec : list R; if_cmat : pmat; if_jcom : pmat; if_cmm : pmat; if_dcmm : pmat; if_jeff : list pmat; if_dict : list (string * pyval) }.
Definition no_mat : pmat := PMat 0 (fun _ _ => 0).
Definition zero_mat (r : nat) : pmat := PMat r (fun _ _ => 0).
(** KinematicsInterface.cpp l.14-32 internalInitialization: vector and matrix of the constraints are not touched (default constructed: empty). *)
Definition iface_new : iface := IFace [] no_mat no_mat no_mat no_mat [] [].
Definition internal_init (f : iface) : iface :=
  IFace (if_cvec f) (if_cmat f) (zero_mat 3) (zero_mat 6) (zero_mat 6) (repeat (zero_mat 6) n_endeffs) (if_dict f).

(** setattr: the properties of PyKinematics.cpp l.90-97 go to the C++ member; any other name goes to the instance dictionary. *)
Definition iface_setattr (name : string) (v : pyval) (f : iface) : pyres iface :=
  if name =? "constraints_vector" then match v with VArr l => PVal (IFace l (if_cmat f) (if_jcom f) (if_cmm f) (if_dcmm f) (if_jeff f) (if_dict f)) | _ => PRaise TypeError end
  else if name =? "constraints_matrix" then match v with VMat m => PVal (IFace (if_cvec f) m (if_jcom f) (if_cmm f) (if_dcmm f) (if_jeff f) (if_dict f)) | _ => PRaise TypeError end
  else if name =? "center_of_mass_jacobian" then match v with VMat m => PVal (IFace (if_cvec f) (if_cmat f) m (if_cmm f) (if_dcmm f) (if_jeff f) (if_dict f)) | _ => PRaise TypeError end
  else if name =? "centroidal_momentum_matrix" then match v with VMat m => PVal (IFace (if_cvec f) (if_cmat f) (if_jcom f) m (if_dcmm f) (if_jeff f) (if_dict f)) | _ => PRaise TypeError end
  else if name =? "centroidal_momentum_matrix_variation" then match v with VMat m => PVal (IFace (if_cvec f) (if_cmat f) (if_jcom f) (if_cmm f) m (if_jeff f) (if_dict f)) | _ => PRaise TypeError end
  else if name =? "endeffector_jacobians" then match v with VJacs l => PVal (IFace (if_cvec f) (if_cmat f) (if_jcom f) (if_cmm f) (if_dcmm f) l (if_dict f)) | _ => PRaise TypeError end
  else PVal (IFace (if_cvec f) (if_cmat f) (if_jcom f) (if_cmm f) (if_dcmm f) (if_jeff f) ((name, v) :: if_dict f)).
(** self.endeffector_jacobians[i] = m: the property returns the C++ vector itself; IndexError out of range. *)
Definition jeff_setitem (i : nat) (m : pmat) (f : iface) : pyres iface :=
  if Nat.ltb i (List.length (if_jeff f)) then PVal (IFace (if_cvec f) (if_cmat f) (if_jcom f) (if_cmm f) (if_dcmm f) (set_nth (if_jeff f) i m) (if_dict f)) else PRaise OtherError.

(** ** Pinocchio *)
Record pin := Pin {
  pin_com : list R -> vec3; pin_hg : list R -> list R -> list R -> vec3 * vec3;       (* com(q); hg.vector[:3], [3:] *)
  pin_ag : list R -> pmat; pin_dag : list R -> list R -> pmat; pin_jcom : list R -> pmat;
  pin_pos : list R -> string -> vec3;                        (* oMf[frame].translation *)
  pin_rot : list R -> string -> nat -> nat -> R;             (* oMf[frame].rotation *)
  pin_jw : list R -> string -> nat -> nat -> R;              (* Jacobian of the frame origin in world axes *)
  pin_integrate : list R -> list R -> list R; pin_difference : list R -> list R -> list R }.
(** pin.frameJacobian(..., LOCAL)[i, d], i < 3 *)
Definition jlocal (P : pin) (q : list R) (fr : string) (i d : nat) : R :=
  pin_rot P q fr 0 i * pin_jw P q fr 0 d + pin_rot P q fr 1 i * pin_jw P q fr 1 d + pin_rot P q fr 2 i * pin_jw P q fr 2 d.

(** l.48-49 *)
Definition jnt_names : list string := ["HFE"; "KFE"; "END"].
Definition eff_names : list string := ["BR"; "BL"; "FR"; "FL"].
(** eff_names[eff_id] + "_" + jnt_names[-1] *)
Definition eff_frame (e : nat) : string := nth e eff_names "" ++ "_" ++ nth 2 jnt_names "".
(** eff_names[c / 3] + "_" + jnt_names[c % 3] of row c = eff_id*3+jnt_id *)
Definition con_frame (c : nat) : string := nth (c / 3) eff_names "" ++ "_" ++ nth (c mod 3) jnt_names "".
Definition n_con : nat := 12.

Section Interface.
  Variables (P : pin) (z_floor : R).
  (** l.51 etc.: kin_state.robot_posture.generalized_joint_positions() *)
  Definition read_positions (s : rstate) : pyres pyval :=
    pbind (posture_getattr (rs_post s) "generalized_joint_positions") py_call.

  (** l.57-67: objective; the body after l.54, given the configuration [q]. *)
  Definition set_effs (q : list R) (f : iface) : pyres iface :=
    fold_left (fun r e => pbind r (jeff_setitem e (PMat 3 (jlocal P q (eff_frame e))))) [0; 1; 2; 3]%nat (PVal f).
  Definition upd_state (q dq ddq : list R) (s : rstate) : rstate :=
    let s := up_com (pin_com P q) s in
    let s := up_lmom (fst (pin_hg P q dq ddq)) s in
    let s := up_amom (snd (pin_hg P q dq ddq)) s in
    up_eff (fold_left (fun l e => set_nth l e (pin_pos P q (eff_frame e))) [0; 1; 2; 3]%nat (rs_effpos s)) s.
  (** l.70-79: the constraints; self.constraintsMatrix and self.constraintsVector as written. *)
  Definition con_G (q : list R) (c d : nat) : R := jlocal P q (con_frame c) 2 d.
  Definition con_h (q : list R) (c : nat) : R := vz (pin_pos P q (con_frame c)).
  Definition con_mat (q : list R) (dt : R) : pmat := PMat n_con (fun c d => - con_G q c d * dt).
  Definition con_vec (q : list R) : list R := map (fun c => con_h q c - z_floor) (seq 0 n_con).
  Definition update_body (q : list R) (dt : R) (s : rstate) (f : iface) : pyres (iface * rstate) :=
    let dq := ra_gen (rs_vel s) in let ddq := ra_gen (rs_acc s) in
    let s' := upd_state q dq ddq s in
    pbind (iface_setattr "centroidal_momentum_matrix" (VMat (pin_ag P q)) f) (fun f =>
    pbind (iface_setattr "centroidal_momentum_matrix_variation" (VMat (pin_dag P q dq)) f) (fun f =>
    pbind (iface_setattr "center_of_mass_jacobian" (VMat (pin_jcom P q)) f) (fun f =>
    pbind (set_effs q f) (fun f =>
    pbind (iface_setattr "constraintsMatrix" (VMat (con_mat q dt)) f) (fun f =>
    pbind (iface_setattr "constraintsVector" (VArr (con_vec q)) f) (fun f => PVal (f, s'))))))).
  (** l.47-79 updateJacobiansAndState *)
  Definition update_state (dt : R) (s : rstate) (f : iface) : pyres (iface * rstate) :=
    pbind (read_positions s) (fun v => match v with VArr q => update_body q dt s f | _ => PRaise TypeError end).
  (** l.43-45 displayPosture, l.81-90 integratePosture, l.92-98 differentiatePostures (the numpy part after the reading of the positions) *)
  Definition display_posture (s : rstate) : pyres unit := pbind (read_positions s) (fun _ => PVal tt).
  Definition integrate_body (q : list R) (dt : R) (s : rstate) : rstate :=
    let q' := pin_integrate P q (map (fun v => v * dt) (ra_gen (rs_vel s))) in
    up_post (set_base_ori (nth 3 q' 0, nth 4 q' 0, nth 5 q' 0, nth 6 q' 0) (set_jnt_pos (skipn 7 q') (set_base_pos (v3_of q') (rs_post s)))) s.
  Definition integrate_posture (dt : R) (s : rstate) : pyres rstate :=
    pbind (read_positions s) (fun v => match v with VArr q => PVal (integrate_body q dt s) | _ => PRaise TypeError end).
  Definition differentiate_body (q0 q1 : list R) (dt : R) (s1 : rstate) : rstate :=
    up_vel (set_gen (map (fun v => v / dt) (pin_difference P q0 q1)) (rs_vel s1)) s1.
  Definition differentiate_postures (s0 s1 : rstate) (dt : R) : pyres rstate :=
    pbind (read_positions s0) (fun v0 => pbind (read_positions s1) (fun v1 =>
      match v0, v1 with VArr q0, VArr q1 => PVal (differentiate_body q0 q1 dt s1) | _, _ => PRaise TypeError end)).
End Interface.

(** Repeated calls of the body, as made by the optimizer (KinematicsOptimizer.cpp l.303 in every pass): configurations, steps and states arbitrary. *)
Fixpoint updates (P : pin) (z : R) (h : list (list R * R * rstate)) (f : iface) : pyres iface :=
  match h with
  | [] => PVal f
  | (q, dt, s) :: h' => match update_body P z q dt s f with PVal (f', _) => updates P z h' f' | PRaise e => PRaise e end
  end.
