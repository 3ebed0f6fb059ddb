(** * Model of the Python view of a contact
    Sources: momentumopt/srcpy/momentumopt/cntopt/PyContacts.cpp l.42-50, momentumopt/src/momentumopt/cntopt/ContactState.cpp l.28-38, 64-76,
    momentumopt/include/momentumopt/cntopt/ContactState.hpp l.36-64.  The record [contact] is the one of CntModel.
    Eigen (not in the repository): the quaternion of a 3x3 matrix, its rotation matrix, and Transform::translate/rotate are written out below.
    Reals are exact; 4x4 matrices are functions of row and column.  Not modelled: __repr__, lifetime of references held by Python. *)
From Coq Require Import Reals List Arith ZArith Bool.
Import ListNotations.
From Verif Require Import Base Vec3 CntModel.
Local Open Scope R_scope.

(** ContactState::ContactState(), ContactState.cpp l.28-38 *)
Definition contact_new : contact := Cnt 0 0 v0 qone FreeContact false (-1) (-1).
(** matrix.coeff(i, j) *)
Definition ent (m : nat -> nat -> R) (i j : nat) : R := m i j.
(** Eigen::Quaternion<double>(matrix) as used in ContactState.cpp l.75: the branch with a positive trace, or the one of the largest diagonal entry i, with j and k following cyclically *)
Definition quat_of_matrix (m : nat -> nat -> R) : quat :=
  let t := ent m 0 0 + ent m 1 1 + ent m 2 2 in
  if Rlt_dec 0 t then
    let s := sqrt (t + 1) in let h := (1/2) / s in
    Q4 (1/2 * s) ((ent m 2 1 - ent m 1 2) * h) ((ent m 0 2 - ent m 2 0) * h) ((ent m 1 0 - ent m 0 1) * h)
  else
    let i := if Rlt_dec (ent m 0 0) (ent m 1 1) then 1%nat else 0%nat in
    let i := if Rlt_dec (ent m i i) (ent m 2 2) then 2%nat else i in
    let j := ((i + 1) mod 3)%nat in let k := ((j + 1) mod 3)%nat in
    let s := sqrt (ent m i i - ent m j j - ent m k k + 1) in let h := (1/2) / s in
    let c := fun n => if Nat.eqb n i then 1/2 * s else if Nat.eqb n j then (ent m j i + ent m i j) * h else (ent m k i + ent m i k) * h in
    Q4 ((ent m k j - ent m j k) * h) (c 0%nat) (c 1%nat) (c 2%nat).
(** Quaternion::toRotationMatrix() *)
Definition matrix_of_quat (q : quat) : nat -> nat -> R :=
  let tx := 2 * qx q in let ty := 2 * qy q in let tz := 2 * qz q in
  let twx := tx * qw q in let twy := ty * qw q in let twz := tz * qw q in
  let txx := tx * qx q in let txy := ty * qx q in let txz := tz * qx q in
  let tyy := ty * qy q in let tyz := tz * qy q in let tzz := tz * qz q in
  fun r c => match r, c with
    | 0%nat, 0%nat => 1 - (tyy + tzz) | 0%nat, 1%nat => txy - twz | 0%nat, 2%nat => txz + twy
    | 1%nat, 0%nat => txy + twz | 1%nat, 1%nat => 1 - (txx + tzz) | 1%nat, 2%nat => tyz - twx
    | 2%nat, 0%nat => txz - twy | 2%nat, 1%nat => tyz + twx | 2%nat, 2%nat => 1 - (txx + tyy) | _, _ => 0 end.
(** contactPlacement() const, ContactState.cpp l.64-70: Identity, translate, rotate *)
Definition placement (c : contact) : nat -> nat -> R :=
  fun i j => if (i <? 3)%nat then if (j <? 3)%nat then matrix_of_quat (c_ori c) i j else vget3 (c_pos c) i else if (j <? 3)%nat then 0 else 1.

(** The assignments, PyContacts.cpp l.44-49; placement: ContactState.cpp l.72-76 *)
Inductive cwrite := WStart (x : R) | WEnd (x : R) | WPosition (v : vec3) | WPlacement (m : nat -> nat -> R) | WType (t : ctype) | WActive (b : bool).
Definition capply (c : contact) (w : cwrite) : contact :=
  let '(Cnt a b p o t s oi te) := c in
  match w with
  | WStart x => Cnt x b p o t s oi te
  | WEnd x => Cnt a x p o t s oi te
  | WPosition v => Cnt a b v o t s oi te
  | WPlacement m => Cnt a b (V3 (ent m 0 3) (ent m 1 3) (ent m 2 3)) (quat_of_matrix m) t s oi te
  | WType y => Cnt a b p o y s oi te
  | WActive y => Cnt a b p o t y oi te
  end.
Definition crun (h : list cwrite) (c : contact) : contact := fold_left capply h c.
