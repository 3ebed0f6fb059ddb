(** * Model of the swing trajectory generator
    Source: momentumopt/src/momentumopt/utilities/TrajectoryGenerator.cpp.  Reals are exact; [None] is a double that is not finite. *)
From Coq Require Import Reals List Arith ZArith Bool.
Import ListNotations.
From Verif Require Import Base Vec3.
Local Open Scope R_scope.

(** std::pow with an integral exponent: pow(0, negative) is infinite. *)
Definition cpow (x : R) (k : Z) : option R :=
  match k with
  | Z0 => Some 1
  | Zpos p => Some (x ^ Pos.to_nat p)
  | Zneg p => if Req_EM_T x 0 then None else Some (/ x ^ Pos.to_nat p)
  end.
Definition omul (a : R) (b : option R) : option R := match b with Some v => Some (a * v) | None => None end.
Definition oadd (a b : option R) : option R := match a, b with Some u, Some v => Some (u + v) | _, _ => None end.

(** Interpolator, TrajectoryGenerator.hpp l.24-39.  InterpMat: rows (time, value). *)
Record interp := Interp { cons_size : nat; span0 : R; span1 : R; coeffs : nat -> R }.
Definition rows := list (R * R).
(** col(0).minCoeff(), maxCoeff(): the matrix must not be empty. *)
Fixpoint min_time (l : rows) : option R := match l with [] => None | [r] => Some (fst r) | r :: l' => match min_time l' with Some m => Some (Rmin (fst r) m) | None => None end end.
Fixpoint max_time (l : rows) : option R := match l with [] => None | [r] => Some (fst r) | r :: l' => match max_time l' with Some m => Some (Rmax (fst r) m) | None => None end end.
(** regression_matrix_ and regression_vector_, l.29-50: row [i] of the stacked system, [None] outside. *)
Definition pos_row (t : R) (col : nat) : R := t ^ col.
Definition vel_row (t : R) (col : nat) : R := match col with O => 0 | S c => INR col * t ^ c end.
Definition acc_row (t : R) (col : nat) : R := match col with O => 0 | S O => 0 | S (S c) => INR col * INR (col - 1) * t ^ c end.
Definition reg_rows (pos vel acc : rows) : list ((nat -> R) * R) :=
  map (fun r => (pos_row (fst r), snd r)) pos ++ map (fun r => (vel_row (fst r), snd r)) vel ++ map (fun r => (acc_row (fst r), snd r)) acc.
Definition reg_matrix (pos vel acc : rows) (i : nat) : nat -> R := fst (nth i (reg_rows pos vel acc) (fun _ => 0, 0)).
Definition reg_vector (pos vel acc : rows) (i : nat) : R := snd (nth i (reg_rows pos vel acc) (fun _ => 0, 0)).
(** initialize, l.17-53.  [qr n M b] is what householderQr().solve returns for the n x n system. *)
Definition init_interp (qr : nat -> (nat -> nat -> R) -> (nat -> R) -> (nat -> R)) (pos vel acc : rows) : res interp :=
  let n := (length pos + length vel + length acc)%nat in
  match min_time pos, min_time vel, min_time acc, max_time pos, max_time vel, max_time acc with
  | Some a, Some b, Some c, Some d, Some e, Some f =>
      Ok (Interp n (Rmin (Rmin a b) c) (Rmax (Rmax d e) f) (qr n (reg_matrix pos vel acc) (reg_vector pos vel acc)))
  | _, _, _, _, _, _ => UB
  end.
(** interpolate, l.55-65: (position, velocity, acceleration). *)
Definition query_time (it : interp) (t : R) : R := Rmin (Rmax t (span0 it)) (span1 it).
Fixpoint osum (n : nat) (f : nat -> option R) : option R := match n with O => Some 0 | S m => oadd (osum m f) (f m) end.
Definition interpolate (it : interp) (t : R) : option R * option R * option R :=
  let q := query_time it t in
  (osum (cons_size it) (fun i => omul (coeffs it i) (cpow q (Z.of_nat i))),
   osum (cons_size it) (fun i => omul (INR i) (omul (coeffs it i) (cpow q (Z.of_nat i - 1)))),
   osum (cons_size it) (fun i => omul (INR i - 1) (omul (INR i) (omul (coeffs it i) (cpow q (Z.of_nat i - 2)))))).

(** TrajectoryGenerator::initialize l.68-84 for one direction, and for the three directions. *)
Definition traj_dir (qr : nat -> (nat -> nat -> R) -> (nat -> R) -> (nat -> R)) (tini pini tend pend via : R) : res interp :=
  init_interp qr [(tini, pini); (/ 2 * (tini + tend), via); (tend, pend)] [(tini, 0); (tend, 0)] [(tini, 0); (tend, 0)].
Definition traj_init qr (tini : R) (pini : vec3) (tend : R) (pend via : vec3) : res (nat -> interp) :=
  bind (traj_dir qr tini (vx pini) tend (vx pend) (vx via)) (fun a =>
  bind (traj_dir qr tini (vy pini) tend (vy pend) (vy via)) (fun b =>
  bind (traj_dir qr tini (vz pini) tend (vz pend) (vz via)) (fun c => Ok (fun d => match d with O => a | 1%nat => b | _ => c end)))).
(** TrajectoryGenerator::update, l.86-90 *)
Definition traj_update (tr : nat -> interp) (t : R) : nat -> option R * option R * option R := fun d => interpolate (tr d) t.
