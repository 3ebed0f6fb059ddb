(** * Model of the end-effector flight phases
    Source: momentumopt/src/momentumopt/cntopt/ContactPlanInterface.cpp l.47-154, ContactState.cpp l.115-187.
    Reals are exact.  Reads outside a std::vector and of the uninitialised viapoint_position are [UB]; so is, as a simplification, storing a
    value that is not finite (dstate holds reals). *)
From Coq Require Import Reals List Arith ZArith Bool.
Import ListNotations.
From Verif Require Import Base Vec3 CntModel TrajModel.
Local Open Scope R_scope.

(** ViapointState, ContactState.cpp l.124-130: viapoint_id_, position_ (the orientation is not used). *)
Definition viapoint : Type := Z * vec3.
(** mapIdToContactTime, l.95-101 *)
Definition map_time (l : list dstate) (n : nat) : res R :=
  foldM (fun acc t => bind (vget l (Z.of_nat t)) (fun d => Ok (acc + d_time d))) (seq 0 n) 0.
Definition on (eff : nat) (d : dstate) : bool := e_act (d_eff d eff).
(** findMakeContactId l.103-116: the search from index [i]; [l] is the part of the vector from there on.  At the last element the loop reads, in this
    round or the next, behind the vector. *)
Fixpoint find_make (eff : nat) (l : list dstate) (i : nat) : res nat :=
  match l with
  | a :: ((b :: _) as r) => if negb (on eff a) && on eff b then Ok i else find_make eff r (S i)
  | _ => UB
  end.
(** findBreakContactId l.118-131 *)
Fixpoint find_break (eff : nat) (l : list dstate) (i : nat) : res nat :=
  match l with
  | a :: ((b :: _) as r) => if on eff a && negb (on eff b) then Ok (S i) else find_break eff r (S i)
  | _ => UB
  end.
Definition findMakeContactId (l : list dstate) (start eff : nat) : res nat := find_make eff (skipn start l) start.
Definition findBreakContactId (l : list dstate) (start eff : nat) : res nat := find_break eff (skipn start l) start.
(** findActiveViapoints l.133-140: the first match; without a match the variable keeps its value ([None]: never assigned). *)
Definition find_via (vias : list viapoint) (cnt : Z) (old : option vec3) : option vec3 :=
  match find (fun v => Z.eqb (fst v) cnt) vias with Some v => Some (snd v) | None => old end.
(** Eigen::QuaternionBase::slerp (Eigen 3): q.slerp(t, o). *)
Definition eps : R := / 2 ^ 52.
Definition qdot (a b : quat) : R := qw a * qw b + qx a * qx b + qy a * qy b + qz a * qz b.
Definition qcomb (s : R) (a : quat) (t : R) (b : quat) : quat :=
  Q4 (s * qw a + t * qw b) (s * qx a + t * qx b) (s * qy a + t * qy b) (s * qz a + t * qz b).
Definition slerp (q : quat) (t : R) (o : quat) : quat :=
  let d := qdot q o in
  let '(s0, s1) := if Rle_dec (1 - eps) (Rabs d) then (1 - t, t)
                   else let th := acos (Rabs d) in (sin ((1 - t) * th) / sin th, sin (t * th) / sin th) in
  qcomb s0 q (if Rlt_dec d 0 then - s1 else s1) o.
(** sw_traj_.update(time); desPos(), desVel(), desAcc(). *)
Definition fin (x : option R) : res R := match x with Some r => Ok r | None => UB end.
Definition vec_of (f : nat -> option R) : res vec3 := bind (fin (f 0%nat)) (fun a => bind (fin (f 1%nat)) (fun b => bind (fin (f 2%nat)) (fun c => Ok (V3 a b c)))).
Definition sw_values (tr : nat -> interp) (t : R) : res (vec3 * vec3 * vec3) :=
  let u := traj_update tr t in
  bind (vec_of (fun d => fst (fst (u d)))) (fun p => bind (vec_of (fun d => snd (fst (u d)))) (fun v => bind (vec_of (fun d => snd (u d))) (fun a => Ok (p, v, a)))).
(** l.147-153: the state of the end-effector written. *)
Definition fly (e : effst) (p v a : vec3) (o : quat) : effst :=
  Eff (e_act e) (e_cid e) (e_aid e) p v a o (e_frc e) (e_trq e) (e_cop e) (e_trqc e).
Definition slerp_time (a b t : nat) : R := Rmin (2 * (INR t - INR a) / (INR b + 1 - INR a)) 1.
(** generateFlightPhase l.142-155: steps a..b *)
Definition fly_step (tr : nat -> interp) (eff a b : nat) (qini qend : quat) (l : list dstate) (t : nat) : res (list dstate) :=
  bind (map_time l (S t)) (fun tm => bind (sw_values tr tm) (fun u =>
  bind (vget l (Z.of_nat t)) (fun d => vset l (Z.of_nat t) (set_eff d eff (fly (d_eff d eff) (fst (fst u)) (snd (fst u)) (snd u) (slerp qini (slerp_time a b t) qend)))))).
Definition generateFlightPhase (tr : nat -> interp) (eff a b : nat) (qini qend : quat) (l : list dstate) : res (list dstate) :=
  foldM (fly_step tr eff a b qini qend) (seq a (S b - a)) l.

Section Update.
  Variable qr : nat -> (nat -> nat -> R) -> (nat -> R) -> (nat -> R).   (* householderQr().solve, see TrajModel *)
  Variables (N : nat) (cs : nat -> list contact) (vias : nat -> list viapoint) (ini : dstate) (com_motion : vec3).
  (** One phase, e.g. l.61-65: viapoint, trajectory, writing. *)
  Definition phase (eff a b : nat) (p0 : vec3) (q0 : quat) (p1 : vec3) (q1 : quat) (cnt : Z) (l : list dstate) (via : option vec3) : res (list dstate * option vec3) :=
    let via' := find_via (vias eff) cnt via in
    bind (map_time l (S a)) (fun ta => bind (map_time l (S b)) (fun tb =>
    match via' with
    | None => UB
    | Some v => bind (traj_init qr ta p0 tb p1 v) (fun tr => bind (generateFlightPhase tr eff a b q0 q1 l) (fun l' => Ok (l', via')))
    end)).
  (** State: sequence, viapoint_position, end_id. *)
  Definition fstate : Type := list dstate * option vec3 * nat.
  (** l.57-66 *)
  Definition first_flight (eff : nat) (c0 : contact) (l : list dstate) (via : option vec3) : res fstate :=
    if on eff ini then Ok (l, via, 0%nat)
    else bind (findMakeContactId l 0 eff) (fun b =>
         bind (phase eff 0 b (e_pos (d_eff ini eff)) (e_ori (d_eff ini eff)) (c_pos c0) (c_ori c0) (-1) l via) (fun s => Ok (s, b))).
  (** l.69-77 *)
  Definition mid_flight (eff : nat) (s : fstate) (k : nat) : res fstate :=
    let '(l, via, e) := s in
    bind (findBreakContactId l e eff) (fun a => bind (findMakeContactId l a eff) (fun b =>
    bind (vget (cs eff) (Z.of_nat k)) (fun c => bind (vget (cs eff) (Z.of_nat (S k))) (fun c' =>
    bind (phase eff a b (c_pos c) (c_ori c) (c_pos c') (c_ori c') (Z.of_nat k) l via) (fun s' => Ok (s', b)))))).
  (** l.80-88 *)
  Definition last_flight (eff : nat) (c : contact) (s : fstate) : res (list dstate * option vec3) :=
    let '(l, via, e) := s in
    bind (vget l (Z.of_nat N - 1)) (fun d =>
    if on eff d then Ok (l, via)
    else bind (findBreakContactId l e eff) (fun a =>
         phase eff a (N - 1) (c_pos c) (c_ori c) (vadd (e_pos (d_eff ini eff)) com_motion) (e_ori (d_eff ini eff)) (Z.of_nat (length (cs eff)) - 1) l via)).
  (** l.53-90 *)
  Definition flight_eff (s : list dstate * option vec3) (eff : nat) : res (list dstate * option vec3) :=
    match cs eff with
    | [] => Ok s
    | c0 :: r => bind (first_flight eff c0 (fst s) (snd s)) (fun s1 => bind (foldM (mid_flight eff) (seq 0 (length r)) s1) (last_flight eff (last r c0)))
    end.
  (** l.47-93 *)
  Definition updateEndeffectorTrajectories (load_kinematics : bool) (l : list dstate) : res (list dstate) :=
    if load_kinematics then bind (foldM flight_eff (seq 0 n_endeffs) (l, None)) (fun s => Ok (fst s)) else Ok l.
End Update.
