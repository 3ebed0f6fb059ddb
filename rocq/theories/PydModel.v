(** * Model of the Python view of a dynamic state
    Sources: momentumopt/srcpy/momentumopt/dynopt/PyDynamics.cpp l.22-67, momentumopt/include/momentumopt/dynopt/DynamicsState.hpp l.37-118,
    momentumopt/src/momentumopt/dynopt/DynamicsState.cpp l.14-44.
    Reals are exact.  An effector number outside the vectors is an unchecked operator[]: [UB].  Not modelled: orientations, contact ids, rates of effectors
    (no setter), toString, reading a file (C32-C35). *)
From Coq Require Import Reals List Arith ZArith Bool.
Import ListNotations.
From Verif Require Import Base Vec3.
Local Open Scope R_scope.

Record dstate := DState {
  ds_dt : R; ds_com : vec3; ds_lmom : vec3; ds_amom : vec3; ds_lmomd : vec3; ds_amomd : vec3;
  ds_act : list bool; ds_pos : list vec3; ds_force : list vec3; ds_torque : list vec3; ds_cop : list vec3 }.
(** DynamicsState.cpp l.14-44; Problem::n_endeffs_ = 4 *)
Definition n_endeffs : nat := 4.
Definition dstate_new : dstate :=
  DState (/ 10) v0 v0 v0 v0 v0 (repeat false n_endeffs) (repeat v0 n_endeffs) (repeat v0 n_endeffs) (repeat v0 n_endeffs) (repeat v0 n_endeffs).

(** v[eff_id] with an int *)
Definition at_eff {A} (l : list A) (i : Z) : res A := if (i <? 0)%Z then UB else match nth_error l (Z.to_nat i) with Some x => Ok x | None => UB end.
Definition put_eff {A} (l : list A) (i : Z) (x : A) : res (list A) :=
  if (i <? 0)%Z then UB else if (Z.to_nat i <? length l)%nat then Ok (set_nth l (Z.to_nat i) x) else UB.

(** Assignments: properties dt, com, lmom, amom, lmomd, amomd (PyDynamics.cpp l.43-48) and setEff... (l.64-67) *)
Inductive dwrite :=
  | WDt (x : R) | WCom (v : vec3) | WLmom (v : vec3) | WAmom (v : vec3) | WLmomd (v : vec3) | WAmomd (v : vec3)
  | WPos (i : Z) (v : vec3) | WForce (i : Z) (v : vec3) | WTorque (i : Z) (v : vec3) | WAct (i : Z) (b : bool).
Definition dapply (w : dwrite) (s : dstate) : res dstate :=
  let '(DState dt c l a ld ad act p f t cop) := s in
  match w with
  | WDt x => Ok (DState x c l a ld ad act p f t cop)
  | WCom v => Ok (DState dt v l a ld ad act p f t cop)
  | WLmom v => Ok (DState dt c v a ld ad act p f t cop)
  | WAmom v => Ok (DState dt c l v ld ad act p f t cop)
  | WLmomd v => Ok (DState dt c l a v ad act p f t cop)
  | WAmomd v => Ok (DState dt c l a ld v act p f t cop)
  | WPos i v => bind (put_eff p i v) (fun p' => Ok (DState dt c l a ld ad act p' f t cop))       (* l.22-24 *)
  | WForce i v => bind (put_eff f i v) (fun f' => Ok (DState dt c l a ld ad act p f' t cop))     (* l.25-27 *)
  | WTorque i v => bind (put_eff p i v) (fun p' => Ok (DState dt c l a ld ad act p' f t cop))    (* l.28-30: endeffectorPosition(effId) = torque *)
  | WAct i b => bind (put_eff act i b) (fun act' => Ok (DState dt c l a ld ad act' p f t cop))   (* l.31-33 *)
  end.
Fixpoint drun (h : list dwrite) (s : dstate) : res dstate := match h with [] => Ok s | w :: r => bind (dapply w s) (drun r) end.

(** Readings: properties, eff/effPosition, effForce, effTorque, effCoP, effActivation (l.51-62) *)
Inductive dprop := PDt | PCom | PLmom | PAmom | PLmomd | PAmomd | PPos (i : Z) | PForce (i : Z) | PTorque (i : Z) | PCop (i : Z) | PAct (i : Z).
Inductive dval := DR (x : R) | DV (v : vec3) | DB (b : bool).
Definition dread (p : dprop) (s : dstate) : res dval :=
  match p with
  | PDt => Ok (DR (ds_dt s)) | PCom => Ok (DV (ds_com s)) | PLmom => Ok (DV (ds_lmom s)) | PAmom => Ok (DV (ds_amom s))
  | PLmomd => Ok (DV (ds_lmomd s)) | PAmomd => Ok (DV (ds_amomd s))
  | PPos i => bind (at_eff (ds_pos s) i) (fun v => Ok (DV v)) | PForce i => bind (at_eff (ds_force s) i) (fun v => Ok (DV v))
  | PTorque i => bind (at_eff (ds_torque s) i) (fun v => Ok (DV v)) | PCop i => bind (at_eff (ds_cop s) i) (fun v => Ok (DV v))
  | PAct i => bind (at_eff (ds_act s) i) (fun b => Ok (DB b))
  end.
