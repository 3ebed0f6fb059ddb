(** * Model of the second-order inverse kinematics
    Source: momentumopt/python/momentumopt/kinoptpy/second_order_ik.py, and momentum_kinematics_optimizer.py l.368-376 (the branch that uses it).
    The robot model (pinocchio), scipy's splines and pseudo-inverse are functions; arrays of the object are overwritten in place and kept between calls, as in the source.
    Reals are exact; a raised exception is [Throw].  data.hg is read as the vector of the six momenta. *)
From Coq Require Import Reals List Arith Bool ZArith.
Import ListNotations.
From Verif Require Import Base Vec3 PyqpModel IkModel MkoModel.
Local Open Scope R_scope.

(** The robot, with the drifts dAg(q, dq) dq and dJ(q, dq) dq of momentum and end-effectors and the orientation error log3(R_base(q)' R(rpy)). *)
Record sorobot := SR { sr :> robot; sr_dh : config -> config -> nat -> R; sr_dv : config -> config -> nat -> nat -> R; sr_err : list R -> config -> vec3 }.
(** Weights and gains, l.34-51, l.63. *)
Record soset := SS { s_track : R; s_contact : R; s_lin : R; s_ang : R; s_joint : R; sp_eff : R; sd_eff : R; sp_com : R; sp_ori : R; sd_ori : R; sp_mom : nat -> R; sp_joint : R; sd_joint : R; s_hier : bool }.
(** J, desired_acceleration, drift_terms; the (q, dq) of robot.data. *)
Record sost := SO { so_J : nat -> nat -> R; so_des : nat -> R; so_drift : nat -> R; so_data : option (config * config) }.
(** __init__: zero arrays *)
Definition so_new : sost := SO (fun _ _ => 0) (fun _ => 0) (fun _ => 0) None.
(** Arguments of step, l.145-147. *)
Record soarg := SA { sa_q : config; sa_dq : config; sa_com : vec3; sa_ori : list R; sa_mom : nat -> R; sa_dmom : nat -> R; sa_pos : list vec3; sa_vel : list vec3; sa_acc : list vec3; sa_contact : list R; sa_joint : option pv }.

Section So.
  Variable sq : pm -> pv -> option (pm * pv) -> nat -> res pv.
  Variable pinv : pm -> pm.            (* scipy.linalg.pinv *)
  Variable rb : sorobot.
  Variable st : soset.
  Notation ne := (r_ne rb). Notation nv := (r_nv rb).
  (** update_kinematics, l.115-143 *)
  Definition update_kinematics (s : sost) (q dq : config) : sost :=
    SO (fun i j => if (i <? 6)%nat then r_Ag rb q i j
          else if (i <? (ne + 2) * 3)%nat then r_Jf rb q ((i - 6) / 3)%nat ((i - 6) mod 3)%nat j
          else if (6 <=? j)%nat then (if (i - (ne + 2) * 3 =? j - 6)%nat then 1 else 0) else so_J s i j)
       (so_des s)
       (fun i => if (i <? 6)%nat then sr_dh rb q dq i else if (i <? (ne + 2) * 3)%nat then sr_dv rb q dq ((i - 6) / 3)%nat ((i - 6) mod 3)%nat else so_drift s i)
       (Some (q, dq)).
  Definition Jdq (s : sost) (dq : config) (i : nat) : R := rsum nv (fun j => so_J s i j * nth j dq 0).
  (** update_des_acc, l.73-103.  J @ dq needs nv velocities; IndexError for missing end-effector references; the joint reference must have as many entries as q[7:], dq[6:] and the joint rows
      (numpy's broadcasting of length 1 is not modelled).  robot.data and q, dq agree here. *)
  Definition update_des_acc (s : sost) (a : soarg) : res sost :=
    if negb (length (sa_dq a) =? nv)%nat then Throw else
    if ((length (sa_pos a) <? ne) || (length (sa_vel a) <? ne) || (length (sa_acc a) <? ne))%nat%bool then Throw else
    bind (match sa_joint a with Some r => if ((pl r =? nv - 6) && (length (skipn 7 (sa_q a)) =? nv - 6))%nat%bool then Ok tt else Throw | None => Ok tt end) (fun _ =>
    Ok (SO (so_J s) (fun i =>
      if (i <? 3)%nat then sa_dmom a i + sp_mom st i * (sa_mom a i - Jdq s (sa_dq a) i) + sp_com st * (vget3 (sa_com a) i - vget3 (r_com rb (sa_q a)) i)
      else if (i <? 6)%nat then sa_dmom a i + sp_mom st i * (sa_mom a i - Jdq s (sa_dq a) i) + (sp_ori st * vget3 (sr_err rb (sa_ori a) (sa_q a)) (i - 3) - sd_ori st * nth i (sa_dq a) 0)
      else if (i <? (ne + 2) * 3)%nat then
        let e := ((i - 6) / 3)%nat in let c := ((i - 6) mod 3)%nat in
        sp_eff st * (vget3 (nth e (sa_pos a) v0) c - vget3 (r_pos rb (sa_q a) e) c) + sd_eff st * (vget3 (nth e (sa_vel a) v0) c - Jdq s (sa_dq a) i) + vget3 (nth e (sa_acc a) v0) c
      else if (i <? nrows rb)%nat then
        match sa_joint a with Some r => let j := (i - (ne + 2) * 3)%nat in sp_joint st * (pe r j - nth (7 + j) (sa_q a) 0) + - (sd_joint st * nth (6 + j) (sa_dq a) 0) | None => 0 end
      else so_des s i) (so_drift s) (so_data s))).
  (** fill_weights, l.105-113 *)
  Definition so_weights (contact : list R) : list R :=
    repeat (s_lin st) 3 ++ repeat (s_ang st) 3 ++ flat_map (fun c => repeat (if Req_EM_T c 1 then s_contact st else s_track st) 3) contact ++ repeat (s_joint st) (nv - 6).
  (** Products of the hierarchical branch, l.165-175.  J[6:6+12] has at most 12 rows. *)
  Definition pmul (A B : pm) : pm := PM (pr A) (pc B) (fun i j => rsum (pc A) (fun k => pa A i k * pa B k j)).
  Definition papp (A : pm) (x : nat -> R) : nat -> R := fun i => rsum (pc A) (fun k => pa A i k * x k).
  Definition hier_solve (s : sost) : pv :=
    let nf := Nat.min 12 (nrows rb - 6) in
    let Jf := PM nf nv (fun i j => so_J s (6 + i)%nat j) in
    let Pf := pinv Jf in
    let ddq := papp Pf (fun i => so_des s (6 + i)%nat - so_drift s (6 + i)%nat) in
    let Nf := PM nv nv (fun i j => (if (i =? j)%nat then 1 else 0) - pa (pmul Pf Jf) i j) in
    let Jr := PM 6 nv (so_J s) in
    let Pr := pinv (pmul Jr Nf) in
    PV nv (fun j => ddq j + papp Pr (fun i => so_des s i - so_drift s i - papp Jr ddq i) j).
  (** step, l.145-181 *)
  Definition so_step (s : sost) (a : soarg) : res (pv * sost) :=
    let s1 := update_kinematics s (sa_q a) (sa_dq a) in
    bind (update_des_acc s1 a) (fun s2 =>
    if s_hier st then Ok (hier_solve s2, s2)
    else
      let wl := so_weights (sa_contact a) in
      if (length wl =? nrows rb)%nat then
        let w := fun k => nth k wl 0 in
        bind (quadprog_solve_qp sq (hessian rb (so_J s2) w) (gradient rb (so_J s2) w (fun k => so_des s2 k - so_drift s2 k)) None None None None) (fun x => Ok (x, s2))
      else Throw).

  (** solve, l.183-257.  The splines through the references and their derivatives, as functions of time. *)
  Record sorefs := SF { f_com : R -> vec3; f_ori : R -> list R; f_mom : R -> nat -> R; f_dmom : R -> nat -> R; f_pos : R -> list vec3; f_vel : R -> list vec3; f_acc : R -> list vec3; f_joint : R -> pv }.
  Variable integ : config -> config -> config.
  Variable rf : sorefs.
  Definition query_at (q dq : config) (t : R) (contact : list R) : soarg := SA q dq (f_com rf t) (f_ori rf t) (f_mom rf t) (f_dmom rf t) (f_pos rf t) (f_vel rf t) (f_acc rf t) contact (Some (f_joint rf t)).
  (** dq += ddq * inner_dt: arrays of the same length *)
  Definition add_scaled (h : R) (dq : config) (x : pv) : res config := if (length dq =? pl x)%nat then Ok (map (fun j => nth j dq 0 + pe x j * h) (seq 0 (length dq))) else Throw.
  Record sv := SV { v_s : sost; v_q : config; v_dq : config; v_t : R; v_ddq : option pv }.
  (** One pass of the inner loop, l.228-245. *)
  Definition inner (contact : list R) (v : sv) : res sv :=
    bind (so_step (v_s v) (query_at (v_q v) (v_dq v) (v_t v) contact)) (fun xs =>
    bind (add_scaled (/ 1000) (v_dq v) (fst xs)) (fun dq' =>
    let q' := integ (v_q v) (map (Rmult (/ 1000)) dq') in
    Ok (SV (update_kinematics (snd xs) q' dq') q' dq' (v_t v + / 1000) (Some (fst xs))))).
  (** The row stored for a step, l.210-222, l.246-255. *)
  Definition so_row (v : sv) : kres :=
    KR (v_q v) (v_dq v) (r_com rb (v_q v)) (fun i => rsum nv (fun j => r_Ag rb (v_q v) i j * nth j (v_dq v) 0)) (r_pos rb (v_q v)) (fun i => Jdq (v_s v) (v_dq v) (6 + i)).
  Definition inner_steps (dt : R) : nat := Z.to_nat (Int_part (dt / / 1000)).
  Definition outer (contacts : list (list R)) (k : nat) (vo : sv * list kres) (it : nat) : res (sv * list kres) :=
    bind (foldM (fun v _ => bind (pyget contacts it) (fun c => inner c v)) (seq 0 k) (fst vo)) (fun v =>
    match v_ddq v with None => Throw | Some _ => Ok (v, snd vo ++ [so_row v]) end).
  (** CubicSpline needs two points and increasing times. *)
  Definition so_solve (s : sost) (N : nat) (dt : R) (contacts : list (list R)) (q0 dq0 : config) : res (sv * list kres) :=
    if (N <? 2)%nat then Throw else if Rle_dec dt 0 then Throw else
    if negb (length dq0 =? nv)%nat then Throw else
    let v := SV (update_kinematics s q0 dq0) q0 dq0 0 None in
    foldM (outer contacts (inner_steps dt)) (seq 1 (N - 1)) (v, [so_row v]).

  (** optimize, momentum_kinematics_optimizer.py l.368-376: the rows are computed again with the first-order object, whose Jacobian is not updated by forward_robot. *)
  Definition refill (ks : ikst) (rows : list kres) : ikst * list kres :=
    fold_left (fun so r => let s1 := forward_robot (fst so) (o_q r) (o_dq r) in (s1, snd so ++ [result rb s1 (o_q r) (o_dq r)])) rows (ks, []).
  Definition optimize_second (s : sost) (ks : ikst) (N : nat) (dt : R) (contacts : list (list R)) (q0 dq0 : config) : res (list kres) :=
    bind (so_solve s N dt contacts q0 dq0) (fun r => Ok (snd (refill ks (snd r)))).
End So.
