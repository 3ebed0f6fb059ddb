(** * Model of the inverse kinematics of one step
    Source: momentumopt/python/momentumopt/kinoptpy/inverse_kinematics.py, class PointContactInverseKinematics.
    The robot model (pinocchio) is a record of functions of the configuration; the mutable pinocchio data is the configuration for which it was last computed.
    Reals are exact; a raised exception is [Throw].  Arrays of the object are overwritten in place and kept between calls, as in the source. *)
From Coq Require Import Reals List Arith Bool.
Import ListNotations.
From Verif Require Import Base Vec3 PyqpModel.
Local Open Scope R_scope.

Definition config := list R.
(** Number of end-effectors, degrees of freedom (nv >= 6), centroidal momentum matrix Ag, the three linear rows of the world oriented Jacobian of an end-effector (l.59-66), center of mass, frame position. *)
Record robot := Rob { r_ne : nat; r_nv : nat; r_Ag : config -> nat -> nat -> R; r_Jf : config -> nat -> nat -> nat -> R; r_com : config -> vec3; r_pos : config -> nat -> vec3 }.
(** Weights and gains, l.36-45, l.29. *)
Record iksetting := IkS { w_track : R; w_contact : R; w_lin : R; w_ang : R; w_joint : R; p_track : R; p_com : R; is_init : bool }.
(** The arrays and caches of the object: J, vel_des, mom_ref_air_phase, the configuration of robot.data, last_q, last_dq. *)
Record ikst := Ik { k_J : nat -> nat -> R; k_vel : nat -> R; k_mom : nat -> R; k_data : option config; k_lq : option config; k_ldq : option config }.
(** __init__, l.47-55: zero arrays, no configuration. *)
Definition ik_new : ikst := Ik (fun _ _ => 0) (fun _ => 0) (fun _ => 0) None None None.
(** The arguments of compute, l.117-131. *)
Record ikarg := IkA { a_q : config; a_dq : config; a_com : vec3; a_lmom : vec3; a_amom : vec3; a_pos : list vec3; a_vel : list vec3; a_contact : list R; a_joint : option pv; a_flight : bool }.

Definition cfg_eqb (a b : config) : bool := if list_eq_dec Req_EM_T a b then true else false.
(** np.all(np.equal(last, q)); comparing with None gives false everywhere. *)
Definition same_as (last : option config) (q : config) : bool := match last with Some l => cfg_eqb l q | None => false end.

Section Ik.
  Variable solve_qp : pm -> pv -> option (pm * pv) -> nat -> res pv.
  Variable rb : robot.
  Notation ne := (r_ne rb). Notation nv := (r_nv rb).
  (** Rows of J: (ne + 2) * 3 + (nv - 6). *)
  Definition nrows : nat := ((ne + 2) * 3 + (nv - 6))%nat.
  (** Reading robot.data; before the first update pinocchio's matrices are zero. *)
  Definition dat (s : ikst) {A} (f : config -> A) (zero : A) : A := match k_data s with Some q => f q | None => zero end.
  (** forward_robot, l.107-115 *)
  Definition forward_robot (s : ikst) (q dq : config) : ikst := Ik (k_J s) (k_vel s) (k_mom s) (Some q) (Some q) (Some dq).
  (** fill_jacobians, l.68-74: row blocks 0..5, the end-effectors, and the identity in the last nv - 6 rows and columns; the other entries are not written. *)
  Definition fill_jacobians (s : ikst) : ikst :=
    let J := fun i j =>
      if (i <? 6)%nat then dat s (r_Ag rb) (fun _ _ => 0) i j
      else if (i <? (ne + 2) * 3)%nat then dat s (r_Jf rb) (fun _ _ _ => 0) ((i - 6) / 3)%nat ((i - 6) mod 3)%nat j
      else if (6 <=? j)%nat then (if (i - (ne + 2) * 3 =? j - 6)%nat then 1 else 0) else k_J s i j in
    Ik J (k_vel s) (k_mom s) (k_data s) (k_lq s) (k_ldq s).
  (** fill_vel_des, l.77-97; IndexError for missing end-effector references, ValueError for a joint reference of another length (numpy's broadcasting of length 1 is not modelled).
      What an exception leaves in the arrays is not modelled. *)
  Variable st : iksetting.
  Definition gain : R := if is_init st then 1 else p_track st.
  Definition fill_vel_des (s : ikst) (a : ikarg) : res ikst :=
    if ((List.length (a_pos a) <? ne) || (List.length (a_vel a) <? ne))%nat%bool then Throw else
    bind (match a_joint a with Some r => if (pl r =? nv - 6)%nat then Ok tt else Throw | None => Ok tt end) (fun _ =>
    let mom := if a_flight a then (fun i => if (i <? 3)%nat then vget3 (a_lmom a) i else if (i <? 6)%nat then vget3 (a_amom a) (i - 3) else k_mom s i) else k_mom s in
    let vel := fun i =>
      if (i <? 3)%nat then vget3 (a_lmom a) i + p_com st * (vget3 (a_com a) i - vget3 (r_com rb (a_q a)) i)
      else if (i <? 6)%nat then vget3 (a_amom a) (i - 3)
      else if (i <? (ne + 2) * 3)%nat then
        let e := ((i - 6) / 3)%nat in let c := ((i - 6) mod 3)%nat in
        vget3 (nth e (a_vel a) v0) c + gain * (vget3 (nth e (a_pos a) v0) c - vget3 (dat s (r_pos rb) (fun _ => v0) e) c)
      else if (i <? nrows)%nat then match a_joint a with Some r => pe r (i - (ne + 2) * 3) | None => 0 end
      else k_vel s i in
    Ok (Ik (k_J s) vel mom (k_data s) (k_lq s) (k_ldq s))).
  (** fill_weights, l.98-106: the diagonal; one block of three per entry of endeff_contact. *)
  Definition weight_list (a : ikarg) : list R :=
    repeat (w_lin st) 3 ++ repeat (w_ang st) 3 ++ flat_map (fun c => repeat (if Req_EM_T c 1 then w_contact st else w_track st) 3) (a_contact a) ++ repeat (w_joint st) (nv - 6).
  (** compute, l.132-154.  J.T.dot(w) raises unless the weights have as many entries as J rows. *)
  Definition hessian (J : nat -> nat -> R) (w : nat -> R) : pm :=
    PM nv nv (fun i j => rsum nrows (fun k => J k i * w k * J k j) + (if (i =? j)%nat then / 1000000 else 0)).
  Definition gradient (J : nat -> nat -> R) (w vel : nat -> R) : pv := PV nv (fun i => - rsum nrows (fun k => J k i * w k * vel k)).
  Definition compute (s : ikst) (a : ikarg) : res (pv * ikst) :=
    let s1 := if (negb (same_as (k_lq s) (a_q a)) || same_as (k_ldq s) (a_dq a))%bool then forward_robot s (a_q a) (a_dq a) else s in
    let s2 := fill_jacobians s1 in
    bind (fill_vel_des s2 a) (fun s3 =>
    let wl := weight_list a in
    if (List.length wl =? nrows)%nat then
      let w := fun k => nth k wl 0 in
      let H := hessian (k_J s3) w in let g := gradient (k_J s3) w (k_vel s3) in
      bind (if a_flight a then quadprog_solve_qp solve_qp H g None None (Some (PM 6 nv (k_J s3))) (Some (PV 6 (k_mom s3))) else quadprog_solve_qp solve_qp H g None None None None) (fun x => Ok (x, s3))
    else Throw).
End Ik.
