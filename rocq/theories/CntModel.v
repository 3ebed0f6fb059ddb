(** * Model of the contact plan
    Source: momentumopt/src/momentumopt/cntopt/ContactPlanInterface.cpp, ContactState.cpp, dynopt/DynamicsState.cpp.
    Reals are exact; std::vector accesses outside the vector are [UB]. *)
From Coq Require Import Reals List Arith ZArith Bool.
Import ListNotations.
From Verif Require Import Base Vec3.
Local Open Scope R_scope.

Definition n_endeffs : nat := 4.   (* Problem::n_endeffs_, momentumopt/include/momentumopt/setting/Definitions.hpp l.21 *)

(** ** DynamicsState.hpp l.104-113: the part of a state that belongs to one end-effector. *)
Record effst := Eff { e_act : bool; e_cid : Z; e_aid : Z; e_pos : vec3; e_vel : vec3; e_acc : vec3; e_ori : quat;
                      e_frc : vec3; e_trq : vec3; e_cop : vec3; e_trqc : vec3 }.
Record dstate := Dyn { d_time : R; d_com : vec3; d_lmom : vec3; d_amom : vec3; d_lmomd : vec3; d_amomd : vec3; d_eff : nat -> effst }.
(** DynamicsState::DynamicsState, DynamicsState.cpp l.14-45 *)
Definition eff_new : effst := Eff false (-1) 0 v0 v0 v0 qone v0 v0 v0 v0.
Definition dstate_new : dstate := Dyn (/ 10) v0 v0 v0 v0 v0 (fun _ => eff_new).
(** DynamicsSequence, DynamicsState.hpp l.121-152, resize DynamicsState.cpp l.90-95. *)
Record dseq := Seq { states : list dstate; act_steps : nat -> Z }.
Definition dresize (n : nat) (q : dseq) : dseq := Seq (repeat dstate_new n) (act_steps q).
Definition set_eff (d : dstate) (eff : nat) (e : effst) : dstate :=
  Dyn (d_time d) (d_com d) (d_lmom d) (d_amom d) (d_lmomd d) (d_amomd d) (upd (d_eff d) eff e).

(** ** ContactState.hpp l.74-81 *)
Inductive ctype := FreeContact | FlatContact | FullContact.
Record contact := Cnt { c_ini : R; c_end : R; c_pos : vec3; c_ori : quat; c_type : ctype; c_sel : bool; c_optid : Z; c_terrain : Z }.
(** idToContactType, ContactState.cpp l.17-26 *)
Definition idToContactType (id : Z) : ctype := match id with 1%Z => FlatContact | 2%Z => FullContact | _ => FreeContact end.
(** The conversion of a double to int, toward zero. *)
Definition trunc (r : R) : Z := if Rle_dec 0 r then (up r - 1)%Z else (- (up (- r) - 1))%Z.
(** ContactState::ContactState(parameters, optimization_id), ContactState.cpp l.40-50; a parameter index outside the vector is undefined behaviour. *)
Definition contact_of (p : list R) (optid : Z) : res contact :=
  match p with
  | t0 :: t1 :: x :: y :: z :: w :: a :: b :: c :: ty :: te :: _ =>
      Ok (Cnt t0 t1 (V3 x y z) (Q4 w a b c) (idToContactType (trunc ty)) false optid (trunc te))
  | _ => UB
  end.
(** ContactSequence::loadFromFile, ContactState.cpp l.79-99: the rows read for each end-effector; contacts are numbered across effectors. *)
Fixpoint load_eff (rows : list (list R)) (optid : Z) : res (list contact * Z) :=
  match rows with
  | [] => Ok ([], optid)
  | p :: r => bind (contact_of p optid) (fun c => bind (load_eff r (optid + 1)%Z) (fun x => Ok (c :: fst x, snd x)))
  end.
Fixpoint load_all (plan : list (list (list R))) (optid : Z) : res (list (list contact) * Z) :=
  match plan with
  | [] => Ok ([], optid)
  | rows :: rest => bind (load_eff rows optid) (fun a => bind (load_all rest (snd a)) (fun b => Ok (fst a :: fst b, snd b)))
  end.
(** ContactPlanFromFile::optimize, ContactPlanFromFile.cpp l.14-24: every contact read is selected. *)
Definition select (c : contact) : contact := Cnt (c_ini c) (c_end c) (c_pos c) (c_ori c) (c_type c) true (c_optid c) (c_terrain c).
Definition plan_from_file (plan : list (list (list R))) : res (list (list contact) * Z) :=
  bind (load_all plan 0) (fun x => Ok (map (map select) (fst x), snd x)).

(** ** fillDynamicsSequence, ContactPlanInterface.cpp l.19-44 *)
(** current_time of step [t], l.29 *)
Definition grid_time (dt : R) (t : nat) : R := (INR t + 1) * dt.
(** The test l.30-31. *)
Definition covers (dt : R) (c : contact) (t : nat) : bool :=
  if Rle_dec (c_ini c) (grid_time dt t) then (if Rlt_dec (grid_time dt t) (c_end c) then true else false) else false.
(** l.33-37 *)
Definition mark (e : effst) (cid aid : Z) (c : contact) : effst :=
  Eff true cid aid (c_pos c) (e_vel e) (e_acc e) (c_ori c) (e_frc e) (e_trq e) (e_cop e) (e_trqc e).
(** Loop body l.29-38 for one time step; the state is the vector of states and the counter. *)
Definition fill_step (dt : R) (eff : nat) (c : contact) (cid : Z) (s : list dstate * Z) (t : nat) : res (list dstate * Z) :=
  if covers dt c t then
    bind (vget (fst s) (Z.of_nat t)) (fun d =>
    bind (vset (fst s) (Z.of_nat t) (set_eff d eff (mark (d_eff d eff) cid (snd s) c))) (fun l => Ok (l, (snd s + 1)%Z)))
  else Ok s.
(** One contact, l.27-39. *)
Definition fill_contact (N : nat) (dt : R) (eff : nat) (s : list dstate * Z) (ic : nat * contact) : res (list dstate * Z) :=
  if c_sel (snd ic) then foldM (fill_step dt eff (snd ic) (Z.of_nat (fst ic))) (seq 0 N) s else Ok s.
Definition enumerate {A} (l : list A) : list (nat * A) := combine (seq 0 (length l)) l.
(** One end-effector, l.23-42. *)
Definition fill_eff (N : nat) (dt : R) (cs : nat -> list contact) (q : dseq) (eff : nat) : res dseq :=
  bind (foldM (fill_contact N dt eff) (enumerate (cs eff)) (states q, 0%Z)) (fun s => Ok (Seq (fst s) (upd (act_steps q) eff (snd s)))).
Definition fillDynamicsSequence (N : nat) (dt : R) (cs : nat -> list contact) (q : dseq) : res dseq :=
  foldM (fill_eff N dt cs) (seq 0 n_endeffs) (Seq (states q) (fun _ => 0%Z)).
