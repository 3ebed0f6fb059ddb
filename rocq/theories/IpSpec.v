(** * Specification for C14 and C54: what the exit codes of the interior-point solver claim. *)
From Coq Require Import Reals List Arith.
From Verif Require Import Base ConeSpec IpModel.
Import ListNotations.
Open Scope R_scope.

(** Euclidean product and norm. *)
Definition ip (n : nat) (u v : nat -> R) : R := rsum n (fun i => u i * v i).
Definition norm2 (n : nat) (u : nat -> R) : R := sqrt (ip n u u).
(** A x, G x, A' y + G' z. *)
Definition Ax (d : pdata) (x : nat -> R) (r : nat) : R := rsum (p_n d) (fun i => p_A d r i * x i).
Definition Gx (d : pdata) (x : nat -> R) (r : nat) : R := rsum (p_n d) (fun i => p_G d r i * x i).
Definition Aty_Gtz (d : pdata) (y z : nat -> R) (i : nat) : R :=
  rsum (p_p d) (fun r => p_A d r i * y r) + rsum (p_nl d + total (p_q d)) (fun r => p_G d r i * z r).
Definition rows (d : pdata) : nat := (p_nl d + total (p_q d))%nat.

(** The conic program  min c'x, A x = b, G x + s = h, s in K,  and its dual  max -b'y - h'z, A'y + G'z + c = 0, z in K. *)
Definition primal_feasible (d : pdata) (x s : nat -> R) : Prop :=
  (forall r, (r < p_p d)%nat -> Ax d x r = p_b d r) /\ (forall r, (r < rows d)%nat -> Gx d x r + s r = p_h d r) /\
  in_closed_cone (p_nl d) (p_q d) s.
Definition dual_feasible (d : pdata) (y z : nat -> R) : Prop :=
  (forall i, (i < p_n d)%nat -> Aty_Gtz d y z i + p_c d i = 0) /\ in_closed_cone (p_nl d) (p_q d) z.

(** Residuals of the homogeneous embedding. *)
Definition emb_x (d : pdata) (o : itr) (i : nat) : R := Aty_Gtz d (i_y o) (i_z o) i + i_tau o * p_c d i.
Definition emb_y (d : pdata) (o : itr) (r : nat) : R := Ax d (i_x o) r - i_tau o * p_b d r.
Definition emb_z (d : pdata) (o : itr) (r : nat) : R := Gx d (i_x o) r + i_s o r - i_tau o * p_h d r.
Definition emb_t (d : pdata) (o : itr) : R := i_kappa o + ip (p_n d) (p_c d) (i_x o) + ip (p_p d) (p_b d) (i_y o) + ip (rows d) (p_h d) (i_z o).

(** The scales the tolerances are relative to. *)
Definition scale_x (d : pdata) (o : itr) : R := Rmax 1 (norm2 (p_n d) (p_c d)) + norm2 (p_p d) (i_y o) + norm2 (rows d) (i_z o).
Definition scale_y (d : pdata) (o : itr) : R := Rmax 1 (norm2 (p_p d) (p_b d)) + norm2 (p_n d) (i_x o).
Definition scale_z (d : pdata) (o : itr) : R := Rmax 1 (norm2 (rows d) (p_h d)) + norm2 (p_n d) (i_x o) + norm2 (rows d) (i_s o).

(** The iterate, divided by tau, meets the feasibility tolerance. *)
Definition residuals_within (feas : R) (d : pdata) (o : itr) : Prop :=
  norm2 (p_p d) (emb_y d o) / i_tau o < feas * scale_y d o /\
  norm2 (rows d) (emb_z d o) / i_tau o < feas * scale_z d o /\
  norm2 (p_n d) (emb_x d o) / i_tau o < feas * scale_x d o.
(** The gap s'z is below the absolute tolerance, or below the relative one times the primal cost (if negative) or the dual cost (if positive). *)
Definition gap_within (t : tols) (d : pdata) (o : itr) : Prop :=
  let gap := ip (rows d) (i_s o) (i_z o) in
  let pcost := ip (p_n d) (p_c d) (i_x o) / i_tau o in
  let dcost := - (ip (p_p d) (p_b d) (i_y o) + ip (rows d) (p_h d) (i_z o)) / i_tau o in
  gap < t_abs t \/ (pcost < 0 /\ gap < t_rel t * (- pcost)) \/ (0 <= pcost /\ 0 < dcost /\ gap < t_rel t * dcost).

(** Iterates that appear when the step oracle is iterated from o0. *)
Inductive visited (step : nat -> itr -> stepres) (o0 : itr) : nat -> itr -> Prop :=
| visit0 : visited step o0 0 o0
| visitS k o o' a : visited step o0 k o -> step k o = Next o' a -> visited step o0 (S k) o'.

(** The solve is exact for the KKT system with scaling operator W: A'dy + G'dz = u, A dx = v, G dx - W(W dz) = w. *)
Definition exact_solve (d : pdata) (W : (nat -> R) -> nat -> R) (sv : dir -> dir) : Prop :=
  forall u, let x := d_x (sv u) in let y := d_y (sv u) in let z := d_z (sv u) in
    (forall i, (i < p_n d)%nat -> Aty_Gtz d y z i = d_x u i) /\
    (forall r, (r < p_p d)%nat -> Ax d x r = d_y u r) /\
    (forall r, (r < rows d)%nat -> Gx d x r - W (W z) r = d_z u r).
