(** * 3-vectors and quaternions (Eigen::Vector3d, Eigen::Quaternion<double>) over exact reals *)
From Coq Require Import Reals.
Local Open Scope R_scope.

Record vec3 := V3 { vx : R; vy : R; vz : R }.
Definition v0 : vec3 := V3 0 0 0.
Definition vadd (a b : vec3) : vec3 := V3 (vx a + vx b) (vy a + vy b) (vz a + vz b).
Definition vsub (a b : vec3) : vec3 := V3 (vx a - vx b) (vy a - vy b) (vz a - vz b).
Definition vscale (k : R) (a : vec3) : vec3 := V3 (k * vx a) (k * vy a) (k * vz a).
Definition vdot (a b : vec3) : R := vx a * vx b + vy a * vy b + vz a * vz b.
Definition vcross (a b : vec3) : vec3 := V3 (vy a * vz b - vz a * vy b) (vz a * vx b - vx a * vz b) (vx a * vy b - vy a * vx b).
(** v(i) for i = 0, 1, 2. *)
Definition vget3 (a : vec3) (i : nat) : R := match i with O => vx a | 1%nat => vy a | _ => vz a end.
(** Eigen::Quaternion<double>(w, x, y, z). *)
Record quat := Q4 { qw : R; qx : R; qy : R; qz : R }.
Definition qone : quat := Q4 1 0 0 0.
