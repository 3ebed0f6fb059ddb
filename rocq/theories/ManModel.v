(** * Model of the LQR on the manifold of centroidal states
    Source: momentumopt/python/momentumopt/kinoptpy/lqr_gain_manifold.py (class CentroidalLqr).
    Reals are exact, sin, cos, atan2 are the mathematical functions.  A state x[0:13] is the record of its slices x[:3], x[3:6], x[6:10] (x, y, z, w), x[10:13];
    tangent vectors (12), controls (6) and matrices are functions of their indices.  [Throw]: exception; [UB]: numpy division by zero (nan or inf).
    scipy.linalg.cho_factor is the parameter [cho]: None is LinAlgError, Some N stands for the factor by the inverse that cho_solve applies;
    [smooth_inv] stands for _smooth_inv (l.372-377).  Not modelled: the text files. *)
From Coq Require Import Reals List Arith Bool.
Import ListNotations.
From Verif Require Import Base Vec3 IpModel LqrModel MkoModel RicModel.
Local Open Scope R_scope.

Record mstate := MX { m_c : vec3; m_v : vec3; m_q : quat; m_w : vec3 }.
(** l.42: eps *)
Definition meps : R := / 1000000.
(** l.50: weight *)
Definition mweight : vec3 := V3 0 0 (mass * (981 / 100)).
Definition qv (q : quat) : vec3 := V3 (qx q) (qy q) (qz q).
Definition qof (v : vec3) (w : R) : quat := Q4 w (vx v) (vy v) (vz v).
Definition norm (v : vec3) : R := sqrt (Vec3.vdot v v).

(** switching_dynamics, l.94-106: the sum of the entries of a row after the first. *)
Definition switching_dynamics (plan : list (list R)) : list R := map (fun r => if Rlt_dec meps (fold_right Rplus 0 (tl r)) then 1 else 0) plan.

(** skew, l.111-116 *)
Definition skew3 (v : vec3) : mat := rows_mat [[0; - vz v; vy v]; [vz v; 0; - vx v]; [- vy v; vx v; 0]].
(** quaternion_to_rotation, l.118-121 *)
Definition quaternion_to_rotation (q : quat) : mat := fun i j =>
  (qw q ^ 2 - Vec3.vdot (qv q) (qv q)) * ident i j + 2 * (vget3 (qv q) i * vget3 (qv q) j) + 2 * qw q * skew3 (qv q) i j.
(** exp_quaternion, l.123-136 *)
Definition exp_quaternion (w : vec3) : quat :=
  let th := norm w in
  if Rle_dec (th ^ 2) meps then qof (vscale (1 - th ^ 2 / 6) w) (1 - th ^ 2 / 2) else qof (vscale (sin th) (vscale (/ th) w)) (cos th).
(** np.arctan2 *)
Definition atan2 (y x : R) : R :=
  if Rlt_dec 0 x then atan (y / x) else
  if Rlt_dec x 0 then (if Rlt_dec y 0 then atan (y / x) - PI else atan (y / x) + PI) else
  if Rlt_dec 0 y then PI / 2 else if Rlt_dec y 0 then - (PI / 2) else 0.
(** log_quaternion, l.138-146 *)
Definition log_quaternion (q : quat) : res vec3 :=
  let v := qv q in let w := qw q in let n := norm v in
  if Rle_dec n meps then if Req_EM_T w 0 then UB else Ok (vscale (2 / w * (1 - n ^ 2 / (3 * w ^ 2))) v)
  else Ok (vscale (2 * atan2 n w / n) v).
(** quaternion_product, l.148-153 *)
Definition quaternion_product (a b : quat) : quat :=
  qof (vadd (vadd (vcross (qv a) (qv b)) (vscale (qw b) (qv a))) (vscale (qw a) (qv b))) (qw a * qw b - Vec3.vdot (qv a) (qv b)).
(** integrate_quaternion, l.155-158 *)
Definition integrate_quaternion (q : quat) (w : vec3) : quat := quaternion_product (exp_quaternion (vscale (/ 2) w)) q.
(** quaternion_difference, l.160-170 *)
Definition qconj (q : quat) : quat := Q4 (qw q) (- qx q) (- qy q) (- qz q).
Definition quaternion_difference (q1 q2 : quat) : res vec3 := log_quaternion (quaternion_product q2 (qconj q1)).

Section Man.
Variable cho : nat -> mat -> option mat.
Variable smooth_inv : nat -> mat -> mat.

(** R.dot(I).dot(R.T) *)
Definition world_inertia (q : quat) : mat := let r := quaternion_to_rotation q in mm 3 (mm 3 r inertia) (tr r).
Definition v3of (f : vec) : vec3 := V3 (f 0%nat) (f 1%nat) (f 2%nat).
Definition mv3 (M : mat) (v : vec3) : vec3 := v3of (mv 3 M (vget3 v)).
(** Slices of a tangent vector or control. *)
Definition t3 (dx : vec) (k : nat) : vec3 := V3 (dx k) (dx (k + 1)%nat) (dx (k + 2)%nat).
(** integrate_step, l.189-204 *)
Definition integrate_step (act : list R) (t : nat) (x : mstate) (u : vec) : res mstate :=
  bind (pyget act t) (fun a =>
  bind (match cho 3 (world_inertia (m_q x)) with Some N => Ok N | None => Throw end) (fun N =>
  Ok (MX (vadd (m_c x) (vscale dt (m_v x))) (vadd (m_v x) (vscale (dt / mass) (vsub (vscale a (t3 u 0)) mweight)))
         (integrate_quaternion (m_q x) (vscale dt (m_w x)))
         (vadd (m_w x) (vscale dt (mv3 N (vsub (vscale a (t3 u 3)) (vcross (m_w x) (mv3 (world_inertia (m_q x)) (m_w x)))))))))).
(** compute_trajectory_from_controls, l.182-186: the states from x, one per control. *)
Fixpoint trajectory_from (act : list R) (t : nat) (x : mstate) (us : list vec) : res (list mstate) :=
  match us with [] => Ok [x] | u :: r => bind (integrate_step act t x u) (fun x' => bind (trajectory_from act (S t) x' r) (fun l => Ok (x :: l))) end.

(** increment_x, l.206-216 *)
Definition increment_x (x : mstate) (dx : vec) : mstate := MX (vadd (m_c x) (t3 dx 0)) (vadd (m_v x) (t3 dx 3)) (integrate_quaternion (m_q x) (t3 dx 6)) (vadd (m_w x) (t3 dx 9)).
(** diff_x, l.218-224 *)
Definition diff_x (x1 x2 : mstate) : res vec :=
  bind (quaternion_difference (m_q x1) (m_q x2)) (fun dq =>
  Ok (fun i => if (i <? 3)%nat then vget3 (vsub (m_c x2) (m_c x1)) i else if (i <? 6)%nat then vget3 (vsub (m_v x2) (m_v x1)) (i - 3)
               else if (i <? 9)%nat then vget3 dq (i - 6) else vget3 (vsub (m_w x2) (m_w x1)) (i - 9))).
Definition unit_step (i : nat) (h : R) : vec := fun j => if (j =? i)%nat then h else 0.
(** dynamics_derivatives, l.226-244: diff_x(fp, f0), column by column, divided by eps *)
Definition dynamics_derivatives (act : list R) (t : nat) (x : mstate) (u : vec) : res (mat * mat) :=
  bind (integrate_step act t x u) (fun f0 =>
  bind (columns_of 12 (fun i => bind (integrate_step act t (increment_x x (unit_step i meps)) u) (fun fp => bind (diff_x fp f0) (fun d => Ok (fun r => d r / meps))))) (fun fx =>
  bind (columns_of 6 (fun i => bind (integrate_step act t x (vplus u (unit_step i meps))) (fun fp => bind (diff_x fp f0) (fun d => Ok (fun r => d r / meps))))) (fun fu => Ok (fx, fu)))).

(** ** Costs.  [N] the horizon, [x0] the reference, [Qw], [Rw] the weights (l.82-83: identity and 1e-3 times identity at every time). *)
Section Cost.
Variables (N : nat) (x0 : nat -> mstate) (Qw Rw : nat -> mat).
(** cost, l.246-253 *)
Definition cost (t : nat) (x : mstate) (u : vec) : res R :=
  bind (diff_x (x0 t) x) (fun dx =>
  if (t =? N)%nat then Ok (vdot 12 (mv 12 (tr (Qw t)) dx) dx) else Ok (/ 2 * vdot 12 (mv 12 (tr (Qw t)) dx) dx + / 2 * vdot 6 (mv 6 (tr (Rw t)) u) u)).
(** The loops of cost_derivatives for cx, cu, l.263-276 *)
Definition cost_dx (t : nat) (x : mstate) (u : vec) : res vec :=
  bind (cost t x u) (fun c0 => bind (columns_of 12 (fun i => bind (cost t (increment_x x (unit_step i meps)) u) (fun cp => Ok (fun _ => (cp - c0) / meps)))) (fun M => Ok (fun i => M 0%nat i))).
Definition cost_du (t : nat) (x : mstate) (u : vec) : res vec :=
  bind (cost t x u) (fun c0 => bind (columns_of 6 (fun i => bind (cost t x (vplus u (unit_step i meps))) (fun cp => Ok (fun _ => (cp - c0) / meps)))) (fun M => Ok (fun i => M 0%nat i))).
(** cost_dxdx, l.284-308: one pass of the inner loop, with dx1, dx2 and cxx as they are changed by the loop *)
Definition add_at (d : vec) (i : nat) (h : R) : vec := fun j => if (j =? i)%nat then d j + h else d j.
Definition hess_cell (t : nat) (x : mstate) (u : vec) (row : nat) (s : vec * vec * mat) (col : nat) : res (vec * vec * mat) :=
  let '(dx1, dx2, cxx) := s in
  let a1 := add_at dx1 col meps in
  bind (cost t (increment_x x a1) u) (fun spp =>
  let a2 := add_at a1 col (- (2 * meps)) in
  bind (cost t (increment_x x a2) u) (fun spm =>
  let a3 := add_at a2 col (- meps) in
  let b1 := add_at dx2 col meps in
  bind (cost t (increment_x x b1) u) (fun smp =>
  let b2 := add_at b1 col (- (2 * meps)) in
  bind (cost t (increment_x x b2) u) (fun smm =>
  let b3 := add_at b2 col meps in
  Ok (a3, b3, fun i j => if ((i =? row) && (j =? col))%nat%bool then spp - spm - smp + smm else cxx i j))))).
Definition hess_row (t : nat) (x : mstate) (u : vec) (s : vec * vec * mat) (row : nat) : res (vec * vec * mat) :=
  let '(dx1, dx2, cxx) := s in
  bind (foldM (hess_cell t x u row) (seq 0 12) (add_at dx1 row meps, add_at dx2 row (- meps), cxx)) (fun '(d1, d2, c) => Ok (add_at d1 row (- meps), add_at d2 row meps, c)).
Definition cost_dxdx (t : nat) (x : mstate) (u : vec) : res mat :=
  bind (foldM (hess_row t x u) (seq 0 12) (fun _ => 0, fun _ => 0, fun _ _ => 0)) (fun '(_, _, c) => Ok (fun i j => / 2 * (c i j / (4 * meps ^ 2) + c j i / (4 * meps ^ 2)))).
(** cost_dudu, l.310-334; cost_dxdu, l.336-360 is zero *)
Definition cost_dudu (t : nat) : mat := if (t =? N)%nat then fun _ _ => 0 else fun i j => / 2 * (Rw t i j + Rw t j i).
Definition cost_dxdu : mat := fun _ _ => 0.
End Cost.

(** ** The backward pass *)
(** The entries of self.Q0, Qdx, Qdu, Qdxdx, Qdudu, Qdxdu at one time, and of value, value_dx, value_dxdx. *)
Record qmodel := QM { q_0 : R; q_x : vec; q_u : vec; q_xx : mat; q_uu : mat; q_xu : mat }.
Record vmodel := VM { v_0 : R; v_x : vec; v_xx : mat }.
(** compute_Q, l.362-370, for n states and m controls, with the derivatives as arguments *)
Definition compute_Q (n : nat) (c0 : R) (cx cu : vec) (cxx cuu cxu fx fu : mat) (V : vmodel) : qmodel :=
  QM (c0 + v_0 V) (vplus cx (mv n (tr fx) (v_x V))) (vplus cu (mv n (tr fu) (v_x V)))
     (mplus cxx (mm n (mm n (tr fx) (v_xx V)) fx)) (mplus cuu (mm n (mm n (tr fu) (v_xx V)) fu)) (mplus cxu (mm n (mm n (tr fx) (v_xx V)) fu)).
(** compute_value_function, l.379-398: feedforward, feedback, value *)
Definition compute_value_function (n m : nat) (q : qmodel) : vec * mat * vmodel :=
  let inv := match cho m (q_uu q) with Some Si => Si | None => smooth_inv m (q_uu q) end in
  let kff := mv m inv (q_u q) in
  let kfb := mm m inv (tr (q_xu q)) in
  (kff, kfb, VM (q_0 q + / 2 * vdot m (mv m (tr (q_uu q)) kff) kff - vdot m kff (q_u q))
                (vplus (vplus (q_x q) (vscal (-2) (mv m (tr kfb) (q_u q)))) (mv m (tr kfb) (mv m (tr (q_uu q)) kff)))
                (mplus (q_xx q) (mscal (-1) (mm m (q_xu q) kfb)))).
(** compute_gains, l.402-427: from the last time to the first, with [dyn] and [cst] the derivatives at the reference; the feedback gains in the order of time and the first value. *)
Definition derivs : Type := R * vec * vec * mat * mat * mat.
Fixpoint backward (n m : nat) (dyn : nat -> res (mat * mat)) (cst : nat -> res derivs) (V : vmodel) (a k : nat) : res (list mat * vmodel) :=
  match k with
  | O => Ok ([], V)
  | S k' => bind (backward n m dyn cst V (S a) k') (fun '(Ks, W) =>
      bind (dyn a) (fun '(fx, fu) => bind (cst a) (fun '(c0, cx, cu, cxx, cuu, cxu) =>
      let '(_, kfb, V') := compute_value_function n m (compute_Q n c0 cx cu cxx cuu cxu fx fu W) in Ok (kfb :: Ks, V'))))
  end.
Definition all_derivs (N : nat) (x0 : nat -> mstate) (us : nat -> vec) (Qw Rw : nat -> mat) (t : nat) : res derivs :=
  bind (cost N x0 Qw Rw t (x0 t) (us t)) (fun c0 => bind (cost_dx N x0 Qw Rw t (x0 t) (us t)) (fun cx => bind (cost_du N x0 Qw Rw t (x0 t) (us t)) (fun cu =>
  bind (cost_dxdx N x0 Qw Rw t (x0 t) (us t)) (fun cxx => Ok (c0, cx, cu, cxx, cost_dudu N Rw t, cost_dxdu))))).
Definition compute_gains (act : list R) (N : nat) (x0 : nat -> mstate) (us : nat -> vec) (Qw Rw : nat -> mat) : res (list mat) :=
  bind (all_derivs N x0 (fun _ _ => 0) Qw Rw N) (fun '(c0, cx, _, cxx, _, _) =>
  bind (backward 12 6 (fun t => dynamics_derivatives act t (x0 t) (us t)) (all_derivs N x0 us Qw Rw) (VM c0 cx cxx) 0 N) (fun r => Ok (fst r))).
End Man.
