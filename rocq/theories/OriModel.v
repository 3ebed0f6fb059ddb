(** * Model of the orientation utilities
    Source: momentumopt/src/momentumopt/utilities/OrientationUtils.cpp.  Reals are exact, sin, cos, acos are the mathematical functions; [None] is a
    result that is not finite. *)
From Coq Require Import Reals Arith Bool.
From Verif Require Import Base Vec3.
Local Open Scope R_scope.

Definition vlen (v : vec3) : R := sqrt (vdot v v).
(** Eigen::Quaternion: vec(), product, dot, norm, normalize (a zero quaternion is left as it is), inverse (zero for a zero quaternion). *)
Definition qvec (q : quat) : vec3 := V3 (qx q) (qy q) (qz q).
Definition qmk (w : R) (v : vec3) : quat := Q4 w (vx v) (vy v) (vz v).
Definition qmul (a b : quat) : quat :=
  Q4 (qw a * qw b - qx a * qx b - qy a * qy b - qz a * qz b)
     (qw a * qx b + qx a * qw b + qy a * qz b - qz a * qy b)
     (qw a * qy b + qy a * qw b + qz a * qx b - qx a * qz b)
     (qw a * qz b + qz a * qw b + qx a * qy b - qy a * qx b).
Definition qdot (a b : quat) : R := qw a * qw b + qx a * qx b + qy a * qy b + qz a * qz b.
Definition qscale (k : R) (a : quat) : quat := Q4 (k * qw a) (k * qx a) (k * qy a) (k * qz a).
Definition qnormalize (q : quat) : quat := if Rlt_dec 0 (qdot q q) then qscale (/ sqrt (qdot q q)) q else q.
Definition qinverse (q : quat) : quat := if Rlt_dec 0 (qdot q q) then qscale (/ qdot q q) (Q4 (qw q) (- qx q) (- qy q) (- qz q)) else Q4 0 0 0 0.

(** Matrices by index. *)
Definition mat := nat -> nat -> R.
(** skewMatrix, l.14-21 *)
Definition skewMatrix (v : vec3) : mat := fun i j =>
  match i, j with
  | O, 1%nat => - vz v | O, 2%nat => vy v | 1%nat, O => vz v | 1%nat, 2%nat => - vx v | 2%nat, O => - vy v | 2%nat, 1%nat => vx v | _, _ => 0
  end.
(** logarithmicMap, l.24-39 *)
Definition qpositive (q : quat) : quat := if Rlt_dec (qw q) 0 then Q4 (qw q * -1) (qx q * -1) (qy q * -1) (qz q * -1) else q.
Definition logarithmicMap (q0 : quat) : vec3 :=
  let q := qpositive (qnormalize q0) in
  if Rlt_dec (Rabs (1 - qw q)) (1 / 100) then vscale 2 (qvec q)
  else let norm := 2 * acos (qw q) in vscale (norm / sin (/ 2 * norm)) (qvec q).
(** exponentialMap, l.42-58 *)
Definition exponentialMap (r : vec3) : quat :=
  let q := if Rlt_dec (vlen r) (1 / 100) then Q4 1 (/ 2 * vx r) (/ 2 * vy r) (/ 2 * vz r)
           else qmk (cos (vlen r / 2)) (vscale (sin (/ 2 * vlen r)) (vscale (/ vlen r) r)) in
  qpositive (qnormalize q).
(** toQuaternionMatrix, l.61-69 *)
Definition toQuaternionMatrix (q : quat) (conj : bool) : mat := fun i j =>
  match i, j with
  | O, O => qw q
  | S i', O => vget3 (qvec q) i'
  | O, S j' => - vget3 (qvec q) j'
  | S i', S j' => (if (i' =? j')%nat then qw q else 0) + (if conj then - skewMatrix (qvec q) i' j' else skewMatrix (qvec q) i' j')
  end.
(** jacobianQuaternionWrtRotationVector, l.72-87: 4 x 3 *)
Definition jacobianQuaternion (r : vec3) : mat := fun i j =>
  let n := vlen r in
  if Rlt_dec n (1 / 100) then
    match i with O => - (1 / 4) * vget3 r j | S i' => if (i' =? j)%nat then / 2 else 0 end
  else
    let f1 := / 2 * sin (/ 2 * n) / n in
    let f2 := (cos (/ 2 * n) * n - 2 * sin (/ 2 * n)) / (2 * n ^ 3) in
    match i with O => - f1 * vget3 r j | S i' => 2 * f1 * (if (i' =? j)%nat then 1 else 0) + f2 * (vget3 r i' * vget3 r j) end.
(** jacobianAngularVelocityWrtRotationVector, l.90-95: 3 x 3 *)
Definition jacobianAngular (r : vec3) : mat := fun i j =>
  rsum 4 (fun k => (match k with O => toQuaternionMatrix (exponentialMap r) false (S i) O * -1 | _ => toQuaternionMatrix (exponentialMap r) false (S i) k end) * jacobianQuaternion r k j).
Definition mulv (m : mat) (v : vec3) : vec3 :=
  let row i := m i 0%nat * vx v + m i 1%nat * vy v + m i 2%nat * vz v in V3 (row 0%nat) (row 1%nat) (row 2%nat).
Definition mtr (m : mat) : mat := fun i j => m j i.
(** Eigen's inverse of a 3 x 3 matrix: cofactors over the determinant. *)
Definition det3 (m : mat) : R :=
  m 0%nat 0%nat * (m 1%nat 1%nat * m 2%nat 2%nat - m 1%nat 2%nat * m 2%nat 1%nat)
  - m 0%nat 1%nat * (m 1%nat 0%nat * m 2%nat 2%nat - m 1%nat 2%nat * m 2%nat 0%nat)
  + m 0%nat 2%nat * (m 1%nat 0%nat * m 2%nat 1%nat - m 1%nat 1%nat * m 2%nat 0%nat).
Definition cyc (i k : nat) : nat := Nat.modulo (i + k) 3.
Definition cof (m : mat) (i j : nat) : R := m (cyc i 1) (cyc j 1) * m (cyc i 2) (cyc j 2) - m (cyc i 1) (cyc j 2) * m (cyc i 2) (cyc j 1).
Definition inv3 (m : mat) : option mat := if Req_EM_T (det3 m) 0 then None else Some (fun i j => cof m j i / det3 m).
(** toAngularVelocity, l.98-102; fromAngularVelocity, l.105-109 *)
Definition toAngularVelocity (r rate : vec3) (body : bool) : vec3 :=
  if body then vscale 2 (mulv (mtr (jacobianAngular r)) rate) else vscale 2 (mulv (jacobianAngular r) rate).
Definition fromAngularVelocity (r omega : vec3) (body : bool) : option vec3 :=
  match inv3 (jacobianAngular r) with
  | None => None
  | Some m => Some (if body then vscale (/ 2) (mulv (mtr m) omega) else vscale (/ 2) (mulv m omega))
  end.
(** The common part of requiredAngularVelocity l.116-121 and orientationError l.147-152. *)
Definition aligned (desired current : quat) : quat * quat :=
  let d := qnormalize desired in let c := qnormalize current in
  (d, if Rlt_dec (qdot c d) 0 then Q4 (qw c * -1) (qx c * -1) (qy c * -1) (qz c * -1) else c).
(** requiredAngularVelocity, l.112-125 *)
Definition requiredAngularVelocity (desired current : quat) (dt : R) (body : bool) : vec3 :=
  let (d, c) := aligned desired current in
  let delta := logarithmicMap (qmul d (qinverse c)) in
  toAngularVelocity (logarithmicMap c) (vscale (/ dt) delta) body.
(** integrateAngularVelocity, l.128-140 *)
Definition integrateAngularVelocity (current : quat) (omega : vec3) (dt : R) (body : bool) : option quat :=
  match fromAngularVelocity (logarithmicMap (qpositive (qnormalize current))) omega body with
  | None => None
  | Some rate => Some (qmul (exponentialMap (vscale dt rate)) current)
  end.
(** orientationError, l.143-154 *)
Definition orientationError (desired current : quat) : vec3 :=
  let (d, c) := aligned desired current in logarithmicMap (qmul d (qinverse c)).
