(** * Specification: rotations as unit quaternions *)
From Coq Require Import Reals Arith.
From Verif Require Import Base Vec3 OriModel.
Local Open Scope R_scope.

(** Hamilton's product in scalar and vector parts. *)
Definition hamilton (a b : quat) : quat :=
  let va := V3 (qx a) (qy a) (qz a) in let vb := V3 (qx b) (qy b) (qz b) in
  let v := vadd (vadd (vscale (qw a) vb) (vscale (qw b) va)) (vcross va vb) in Q4 (qw a * qw b - vdot va vb) (vx v) (vy v) (vz v).
Definition norm2 (q : quat) : R := qw q * qw q + qx q * qx q + qy q * qy q + qz q * qz q.
Definition unitq (q : quat) : Prop := norm2 q = 1.
Definition qneg (q : quat) : quat := Q4 (- qw q) (- qx q) (- qy q) (- qz q).
(** Two quaternions describe the same rotation. *)
Definition same_rotation (a b : quat) : Prop := a = b \/ a = qneg b.
(** The rotation by the angle |r| about r. *)
Definition length3 (r : vec3) : R := sqrt (vx r * vx r + vy r * vy r + vz r * vz r).
Definition rotation_of (r : vec3) : quat :=
  let th := length3 r in let k := sin (th / 2) / th in Q4 (cos (th / 2)) (k * vx r) (k * vy r) (k * vz r).
(** Application of a 4 x 4 matrix to the components of a quaternion. *)
Definition comp (q : quat) (i : nat) : R := match i with O => qw q | 1%nat => qx q | 2%nat => qy q | _ => qz q end.
Definition applies (m : nat -> nat -> R) (p q : quat) : Prop := forall i, (i < 4)%nat -> rsum 4 (fun j => m i j * comp p j) = comp q i.
(** q(t) moves at t = 0 with angular velocity w (in world coordinates): q' = 1/2 w q. *)
Definition velocity_at (q : R -> quat) (w : vec3) : Prop :=
  let dq := hamilton (Q4 0 (vx w / 2) (vy w / 2) (vz w / 2)) (q 0) in
  derivable_pt_lim (fun t => qw (q t)) 0 (qw dq) /\ derivable_pt_lim (fun t => qx (q t)) 0 (qx dq) /\
  derivable_pt_lim (fun t => qy (q t)) 0 (qy dq) /\ derivable_pt_lim (fun t => qz (q t)) 0 (qz dq).
(** The same in body coordinates: q' = 1/2 q w. *)
Definition body_velocity_at (q : R -> quat) (w : vec3) : Prop :=
  let dq := hamilton (q 0) (Q4 0 (vx w / 2) (vy w / 2) (vz w / 2)) in
  derivable_pt_lim (fun t => qw (q t)) 0 (qw dq) /\ derivable_pt_lim (fun t => qx (q t)) 0 (qx dq) /\
  derivable_pt_lim (fun t => qy (q t)) 0 (qy dq) /\ derivable_pt_lim (fun t => qz (q t)) 0 (qz dq).
