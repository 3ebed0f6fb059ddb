(** * Specification: the LQR on the manifold of centroidal states *)
From Coq Require Import Reals List Arith.
Import ListNotations.
From Verif Require Import Vec3 OriSpec LqrSpec RicSpec.
Local Open Scope R_scope.

(** q v q*, the vector v rotated by the unit quaternion q. *)
Definition rotated (q : quat) (v : vec3) : vec3 :=
  let p := hamilton (hamilton q (Q4 0 (vx v) (vy v) (vz v))) (Q4 (qw q) (- qx q) (- qy q) (- qz q)) in V3 (qx p) (qy p) (qz p).
(** A 3 x 3 matrix applied to a vector, product, determinant. *)
Definition applied (M : nat -> nat -> R) (v : vec3) : vec3 :=
  let r i := M i 0%nat * vx v + M i 1%nat * vy v + M i 2%nat * vz v in V3 (r 0%nat) (r 1%nat) (r 2%nat).
Definition det3 (M : nat -> nat -> R) : R :=
  M 0%nat 0%nat * (M 1%nat 1%nat * M 2%nat 2%nat - M 1%nat 2%nat * M 2%nat 1%nat) - M 0%nat 1%nat * (M 1%nat 0%nat * M 2%nat 2%nat - M 1%nat 2%nat * M 2%nat 0%nat)
  + M 0%nat 2%nat * (M 1%nat 0%nat * M 2%nat 1%nat - M 1%nat 1%nat * M 2%nat 0%nat).

(** A correct Cholesky routine: for a symmetric matrix it succeeds exactly if the matrix is positive definite, and solves with it. *)
Definition pos_def (n : nat) (M : nat -> nat -> R) : Prop := forall x, (exists i, (i < n)%nat /\ x i <> 0) -> 0 < bilin n n x M x.
Definition cho_correct (cho : nat -> (nat -> nat -> R) -> option (nat -> nat -> R)) : Prop := forall n M, symmetric n M ->
  match cho n M with Some N => inverse n M N /\ pos_def n M | None => ~ pos_def n M end.

(** The inertia of a body with principal moments Ix, Iy, Iz at orientation q, applied to a vector of the world. *)
Definition inertia_at (Ix Iy Iz : R) (q : quat) (v : vec3) : vec3 :=
  let b := rotated (Q4 (qw q) (- qx q) (- qy q) (- qz q)) v in rotated q (V3 (Ix * vx b) (Iy * vy b) (Iz * vz b)).
(** One step of duration h of a rigid body of mass m under gravity g, force f and moment tau: position, momentum and angular momentum balance (with w x I w). *)
Record rigid_step (h m g Ix Iy Iz : R) (c v : vec3) (q : quat) (w : vec3) (f tau : vec3) (c' v' w' : vec3) : Prop := {
  rs_position : c' = vadd c (vscale h v);
  rs_momentum : vscale m (vsub v' v) = vscale h (vsub f (V3 0 0 (m * g)));
  rs_angular : inertia_at Ix Iy Iz q (vsub w' w) = vscale h (vsub tau (vcross w (inertia_at Ix Iy Iz q w))) }.

(** The vector coordinates 0-5 and 9-11 of a state; 6-8 are those of the orientation. *)
Definition coordinate (c v w : vec3) (i : nat) : R := if Nat.ltb i 3 then vget3 c i else if Nat.ltb i 6 then vget3 v (i - 3) else vget3 w (i - 9).
Definition vector_coordinate (i : nat) : Prop := (i < 6)%nat \/ (9 <= i < 12)%nat.

(** A quadratic function of n variables and its minimiser over m controls. *)
Definition quad1 (n : nat) (a : R) (b : nat -> R) (H : nat -> nat -> R) (x : nat -> R) : R := a + inner n b x + 1 / 2 * bilin n n x H x.
Definition quad2 (n m : nat) (a : R) (b d : nat -> R) (H G N : nat -> nat -> R) (x u : nat -> R) : R :=
  a + inner n b x + inner m d u + 1 / 2 * bilin n n x H x + 1 / 2 * bilin m m u G u + bilin n m x N u.

(** The linear-quadratic problem with dynamics x' = A x + B u, and an affine policy with feedforward ffs and gains Ks. *)
Definition lin_step (n m : nat) (A B : nat -> nat -> nat -> R) (x u : nat -> R) (t : nat) : nat -> R := fun i => sum n (fun j => A t i j * x j) + sum m (fun k => B t i k * u k).
Definition affine_policy (n a : nat) (ffs : nat -> nat -> R) (Ks : list (nat -> nat -> R)) (t : nat) (x : nat -> R) : nat -> R :=
  fun i => - ffs t i - sum n (fun j => nth (t - a) Ks (fun _ _ => 0) i j * x j).
Definition psd (n : nat) (M : nat -> nat -> R) : Prop := forall x, 0 <= bilin n n x M x.
