(** * Specification: the sequence after a plan has been stored *)
From Coq Require Import Reals List Arith ZArith Bool.
Import ListNotations.
From Verif Require Import Base Vec3 CntModel CntSpec DynModel DynSpec.
Local Open Scope R_scope.

(** Euclidean distance of two trajectories of n points, divided by n. *)
Definition mean_distance (n : nat) (a b : nat -> vec3) : R :=
  sqrt (fold_right Rplus 0 (map (fun t => (vx (a t) - vx (b t)) ^ 2 + (vy (a t) - vy (b t)) ^ 2 + (vz (a t) - vz (b t)) ^ 2) (seq 0 n))) / INR n.
Definition nth_state (l : list dstate) (t : nat) : dstate := nth t l dstate_new.
(** Torque about the contact point in the end-effector's frame: the normal torque plus cop x (weight * force). *)
Definition torque_at_contact (g : dset) (o : quat) (frc : vec3) (copx copy trq : R) : vec3 :=
  let f := vscale (g_mg g) frc in
  vadd (V3 0 0 trq) (vcross (V3 copx copy 0) (V3 (vdot (rotcol o 0) f) (vdot (rotcol o 1) f) (vdot (rotcol o 2) f))).
(** [l] is the sequence [q] with the plan P written into it; [am] the angular momenta.
    The quantities of step t go to state t, except com and momenta, which go to state t+1 (and com of step 0 also to state 0). *)
Record stored (g : dset) (q : dseq) (P : plan) (am : nat -> vec3) (l : list dstate) : Prop := {
  so_len : length l = length (states q);
  so_com0 : d_com (nth_state l 0) = p_com P 0%nat;
  so_com : forall t, (t < g_N g)%nat -> d_com (nth_state l (S t)) = p_com P t;
  so_lmom : forall t, (t < g_N g)%nat -> d_lmom (nth_state l (S t)) = p_lmom P t;
  so_amom : forall t, (t < g_N g)%nat -> d_amom (nth_state l (S t)) = am t;
  so_first : d_lmom (nth_state l 0) = d_lmom (nth_state (states q) 0) /\ d_amom (nth_state l 0) = d_amom (nth_state (states q) 0);
  so_time : g_heur g = TimeOptimization -> forall t, (t < g_N g)%nat ->
    d_time (nth_state l t) = p_dt P t /\ d_lmomd (nth_state l t) = p_lmomd P t /\ d_amomd (nth_state l t) = p_amomd P t;
  so_time_kept : forall t, g_heur g <> TimeOptimization \/ (g_N g <= t)%nat ->
    d_time (nth_state l t) = d_time (nth_state (states q) t) /\ d_lmomd (nth_state l t) = d_lmomd (nth_state (states q) t) /\ d_amomd (nth_state l t) = d_amomd (nth_state (states q) t);
  so_eff : forall e t, (e < g_neff g)%nat -> (t < g_N g)%nat -> active q e t ->
    let o := look q e t in
    d_eff (nth_state l t) e = Eff (e_act o) (e_cid o) (e_aid o) (e_pos o) (e_vel o) (e_acc o) (e_ori o) (p_frc P e t) (V3 0 0 (p_trq P e t))
      (V3 (p_copx P e t) (p_copy P e t) 0) (torque_at_contact g (e_ori o) (p_frc P e t) (p_copx P e t) (p_copy P e t) (p_trq P e t));
  so_eff_kept : forall e t, (g_neff g <= e)%nat \/ (g_N g <= t)%nat \/ ~ active q e t -> d_eff (nth_state l t) e = look q e t;
  so_beyond : forall t, (g_N g < t)%nat -> d_com (nth_state l t) = d_com (nth_state (states q) t) /\ d_lmom (nth_state l t) = d_lmom (nth_state (states q) t) /\ d_amom (nth_state l t) = d_amom (nth_state (states q) t) }.
