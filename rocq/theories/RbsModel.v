(** * Model of the containers of a kinematic state and of their Python properties
    Sources: momentumopt/include/momentumopt/kinopt/KinematicsState.hpp, momentumopt/src/momentumopt/kinopt/KinematicsState.cpp,
    momentumopt/srcpy/momentumopt/kinopt/PyKinematics.cpp l.26-80.
    Reals are exact.  Dynamic Eigen vectors are lists with their own length; [UB] is a failed Eigen size assertion (an abort with
    assertions on, a write or read out of bounds with them off) or std::vector operator[] out of range; [Throw] is the Python exception of
    pybind11 (an array of the wrong size for a fixed-size argument, an index out of range): raised before the object is touched.
    Not modelled: toString, lifetime of references held by Python. *)
From Coq Require Import Reals List Arith ZArith Bool.
Import ListNotations.
From Verif Require Import Base Vec3.
Local Open Scope R_scope.

(** pybind11/eigen.h: conversion of a one-dimensional array to Vector3d, Vector4d. *)
Definition as3 (l : list R) : res vec3 := match l with [a; b; c] => Ok (V3 a b c) | _ => Throw end.
Definition as4 (l : list R) : res (R * R * R * R) := match l with [a; b; c; d] => Ok (a, b, c, d) | _ => Throw end.
Definition l3 (v : vec3) : list R := [vx v; vy v; vz v].
Definition v3_of (l : list R) : vec3 := V3 (nth 0 l 0) (nth 1 l 0) (nth 2 l 0).

(** ** Eigen blocks of a dynamic vector *)
(** v.segment(i, k) read: both ends asserted. *)
Definition seg (v : list R) (i k : nat) : res (list R) := if (i + k <=? length v)%nat then Ok (firstn k (skipn i v)) else UB.
(** v.segment(i, w.size()) = w *)
Definition set_seg (v : list R) (i : nat) (w : list R) : res (list R) :=
  if (i + length w <=? length v)%nat then Ok (firstn i v ++ w ++ skipn (i + length w) v) else UB.
(** v.tail(k) read *)
Definition tail (v : list R) (k : nat) : res (list R) := if (k <=? length v)%nat then Ok (skipn (length v - k) v) else UB.
(** v.tail(k) = w: the sizes must agree. *)
Definition set_tail (v : list R) (k : nat) (w : list R) : res (list R) :=
  if (k <=? length v)%nat && (length w =? k)%nat then Ok (firstn (length v - k) v ++ w) else UB.
(** Eigen::VectorXd(n).setZero() *)
Definition zeros (n : nat) : list R := repeat 0 n.

(** ** RobotPosture, KinematicsState.hpp l.22-69 *)
Record posture := Posture { po_n : nat; po_pos : vec3; po_jnt : list R; po_ori : quat }.
(** l.28-33 *)
Definition posture_new (n : nat) : posture := Posture n v0 (zeros n) qone.
(** l.43 pyBaseOrientation(): x, y, z, w *)
Definition py_base_ori (p : posture) : list R := [qx (po_ori p); qy (po_ori p); qz (po_ori p); qw (po_ori p)].
(** l.45-48: the setters. *)
Definition set_base_pos (v : vec3) (p : posture) : posture := Posture (po_n p) v (po_jnt p) (po_ori p).
Definition set_jnt_pos (v : list R) (p : posture) : posture := Posture (po_n p) (po_pos p) v (po_ori p).
Definition set_base_ori (c : R * R * R * R) (p : posture) : posture :=
  let '(x, y, z, w) := c in Posture (po_n p) (po_pos p) (po_jnt p) (Q4 w x y z).
(** l.50-57 generalizedJointPositions: head(3), tail(num_joints_) and segment<4>(3) of a vector of num_joints_+7 uninitialised entries;
    the uninitialised vector is taken as zeros: every entry is overwritten. *)
Definition gen_pos (p : posture) : res (list R) :=
  bind (set_seg (zeros (po_n p + 7)) 0 (l3 (po_pos p))) (fun g =>
  bind (set_tail g (po_n p) (po_jnt p)) (fun g =>
  set_seg g 3 [qx (po_ori p); qy (po_ori p); qz (po_ori p); qw (po_ori p)])).

(** ** RobotVelocity l.72-103, RobotAcceleration l.106-137 (the same text with other names) *)
Record rates := Rates { ra_n : nat; ra_gen : list R }.
(** l.78-81 *)
Definition rates_new (n : nat) : rates := Rates n (zeros (n + 6)).
(** l.84-92: the getters. *)
Definition lin_rate (r : rates) : res (list R) := seg (ra_gen r) 0 3.
Definition ang_rate (r : rates) : res (list R) := seg (ra_gen r) 3 3.
Definition jnt_rate (r : rates) : res (list R) := tail (ra_gen r) (ra_n r).
(** l.94-97: the setters. *)
Definition set_gen (v : list R) (r : rates) : rates := Rates (ra_n r) v.
Definition set_jnt_rate (v : list R) (r : rates) : res rates := bind (set_tail (ra_gen r) (ra_n r) v) (fun g => Ok (Rates (ra_n r) g)).
Definition set_lin_rate (v : vec3) (r : rates) : res rates := bind (set_seg (ra_gen r) 0 (l3 v)) (fun g => Ok (Rates (ra_n r) g)).
Definition set_ang_rate (v : vec3) (r : rates) : res rates := bind (set_seg (ra_gen r) 3 (l3 v)) (fun g => Ok (Rates (ra_n r) g)).

(** ** KinematicsState l.144-208; Definitions.hpp l.21: n_endeffs_ = 4 *)
Definition n_endeffs : nat := 4.
Record rstate := RState {
  rs_post : posture; rs_vel : rates; rs_acc : rates; rs_n : nat; rs_com : vec3; rs_lmom : vec3; rs_amom : vec3;
  rs_effori : list quat; rs_effpos : list vec3; rs_effvel : list vec3; rs_effacc : list vec3 }.
(** KinematicsState.cpp l.45-67 *)
Definition rstate_new (n : nat) : rstate :=
  RState (posture_new n) (rates_new n) (rates_new n) n v0 v0 v0
         (repeat qone n_endeffs) (repeat v0 n_endeffs) (repeat v0 n_endeffs) (repeat v0 n_endeffs).
(** l.183-191 endeffectorPosition(eff_id) const: operator[] of a std::vector. *)
Definition eff_pos (s : rstate) (i : nat) : res vec3 := match nth_error (rs_effpos s) i with Some v => Ok v | None => UB end.

(** Updates of one member. *)
Definition up_post (p : posture) (s : rstate) : rstate :=
  RState p (rs_vel s) (rs_acc s) (rs_n s) (rs_com s) (rs_lmom s) (rs_amom s) (rs_effori s) (rs_effpos s) (rs_effvel s) (rs_effacc s).
Definition up_vel (r : rates) (s : rstate) : rstate :=
  RState (rs_post s) r (rs_acc s) (rs_n s) (rs_com s) (rs_lmom s) (rs_amom s) (rs_effori s) (rs_effpos s) (rs_effvel s) (rs_effacc s).
Definition up_acc (r : rates) (s : rstate) : rstate :=
  RState (rs_post s) (rs_vel s) r (rs_n s) (rs_com s) (rs_lmom s) (rs_amom s) (rs_effori s) (rs_effpos s) (rs_effvel s) (rs_effacc s).
Definition up_com (v : vec3) (s : rstate) : rstate :=
  RState (rs_post s) (rs_vel s) (rs_acc s) (rs_n s) v (rs_lmom s) (rs_amom s) (rs_effori s) (rs_effpos s) (rs_effvel s) (rs_effacc s).
Definition up_lmom (v : vec3) (s : rstate) : rstate :=
  RState (rs_post s) (rs_vel s) (rs_acc s) (rs_n s) (rs_com s) v (rs_amom s) (rs_effori s) (rs_effpos s) (rs_effvel s) (rs_effacc s).
Definition up_amom (v : vec3) (s : rstate) : rstate :=
  RState (rs_post s) (rs_vel s) (rs_acc s) (rs_n s) (rs_com s) (rs_lmom s) v (rs_effori s) (rs_effpos s) (rs_effvel s) (rs_effacc s).
Definition up_eff (l : list vec3) (s : rstate) : rstate :=
  RState (rs_post s) (rs_vel s) (rs_acc s) (rs_n s) (rs_com s) (rs_lmom s) (rs_amom s) (rs_effori s) l (rs_effvel s) (rs_effacc s).

(** ** The Python assignments, PyKinematics.cpp l.31-79: the value on the right is an array of any length. *)
Inductive wr := WGen (v : list R) | WJnt (v : list R) | WLin (v : list R) | WAng (v : list R).
Inductive kop :=
| SBasePos (v : list R)      (* state.robot_posture.base_position = v, l.35 *)
| SBaseOri (v : list R)      (* state.robot_posture.base_orientation = v, l.36 *)
| SJnt (v : list R)          (* state.robot_posture.joint_positions = v, l.37 *)
| SVel (w : wr)              (* state.robot_velocity.{generalized_joint,joint,base_linear,base_angular}_velocit{y,ies} = v, l.43-46 *)
| SAcc (w : wr)              (* the same of robot_acceleration, l.52-55 *)
| SCom (v : list R) | SLmom (v : list R) | SAmom (v : list R)   (* l.62-64 *)
| SPosture (p : posture) | SVelocity (r : rates) | SAcceleration (r : rates)   (* state.robot_posture = p, ..., l.65-67 *)
| SEffs (l : list vec3)      (* state.endeffector_positions = ArrayVector3d, l.68 *)
| SEffAt (i : nat) (v : list R).   (* state.endeffector_positions[i] = v: bind_vector, IndexError out of range *)

Definition set_rates (w : wr) (r : rates) : res rates :=
  match w with
  | WGen v => Ok (set_gen v r)
  | WJnt v => set_jnt_rate v r
  | WLin v => bind (as3 v) (fun a => set_lin_rate a r)
  | WAng v => bind (as3 v) (fun a => set_ang_rate a r)
  end.
Definition kstep (o : kop) (s : rstate) : res rstate :=
  match o with
  | SBasePos v => bind (as3 v) (fun a => Ok (up_post (set_base_pos a (rs_post s)) s))
  | SBaseOri v => bind (as4 v) (fun a => Ok (up_post (set_base_ori a (rs_post s)) s))
  | SJnt v => Ok (up_post (set_jnt_pos v (rs_post s)) s)
  | SVel w => bind (set_rates w (rs_vel s)) (fun r => Ok (up_vel r s))
  | SAcc w => bind (set_rates w (rs_acc s)) (fun r => Ok (up_acc r s))
  | SCom v => bind (as3 v) (fun a => Ok (up_com a s))
  | SLmom v => bind (as3 v) (fun a => Ok (up_lmom a s))
  | SAmom v => bind (as3 v) (fun a => Ok (up_amom a s))
  | SPosture p => Ok (up_post p s)
  | SVelocity r => Ok (up_vel r s)
  | SAcceleration r => Ok (up_acc r s)
  | SEffs l => Ok (up_eff l s)
  | SEffAt i v => bind (as3 v) (fun a => if (i <? length (rs_effpos s))%nat then Ok (up_eff (set_nth (rs_effpos s) i a) s) else Throw)
  end.
(** A Python script that performs the assignments one after the other and catches the exceptions: a rejected assignment leaves the object alone. *)
Fixpoint krun (h : list kop) (s : rstate) : res rstate :=
  match h with
  | [] => Ok s
  | o :: h' => match kstep o s with Ok s' => krun h' s' | Throw => krun h' s | UB => UB end
  end.

(** ** KinematicsSequence, l.211-235 and KinematicsState.cpp l.97-102; num_timesteps and num_joints are ints, the latter non negative. *)
Definition seq_resize (nt : Z) (nj : nat) (old : list rstate) : list rstate :=
  fold_left (fun acc _ => acc ++ [rstate_new nj]) (seq 0 (Z.to_nat nt)) [].
Definition seq_state (l : list rstate) (i : nat) : res rstate := match nth_error l i with Some s => Ok s | None => UB end.
