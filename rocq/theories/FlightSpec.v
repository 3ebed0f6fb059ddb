(** * Specification: flight phases of an end-effector *)
From Coq Require Import Reals List Arith ZArith.
Import ListNotations.
From Verif Require Import Base Vec3 CntModel TrajSpec FlightModel TrajModel.
Local Open Scope R_scope.

(** Time at the end of the first n steps. *)
Definition clock (l : list dstate) (n : nat) : R := rsum n (fun t => d_time (nth t l dstate_new)).
Definition at_step (l : list dstate) (t eff : nat) : effst := d_eff (nth t l dstate_new) eff.
Definition active (l : list dstate) (eff t : nat) : Prop := e_act (at_step l t eff) = true.

(** Contact k holds exactly on the steps start k .. stop k - 1; between two contacts there are at least two steps of flight. *)
Record intervals (l : list dstate) (eff n : nat) (start stop : nat -> nat) : Prop := {
  iv_len : forall k, (k < n)%nat -> (start k < stop k <= length l)%nat;
  iv_gap : forall k, (S k < n)%nat -> (stop k + 2 <= start (S k))%nat;
  iv_act : forall t, (t < length l)%nat -> active l eff t <-> exists k, (k < n)%nat /\ (start k <= t < stop k)%nat }.

(** What is not a reference of the end-effector stays. *)
Definition keeps (x' x : effst) : Prop :=
  e_act x' = e_act x /\ e_cid x' = e_cid x /\ e_aid x' = e_aid x /\ e_frc x' = e_frc x /\ e_trq x' = e_trq x /\ e_cop x' = e_cop x /\ e_trqc x' = e_trqc x.
(** Only references of end-effectors eff at steps t with W eff t differ. *)
Record framed (W : nat -> nat -> Prop) (l l' : list dstate) : Prop := {
  fr_len : length l' = length l;
  fr_rest : forall t, let d := nth t l dstate_new in let d' := nth t l' dstate_new in
     d_time d' = d_time d /\ d_com d' = d_com d /\ d_lmom d' = d_lmom d /\ d_amom d' = d_amom d /\ d_lmomd d' = d_lmomd d /\ d_amomd d' = d_amomd d;
  fr_keep : forall t eff, keeps (at_step l' t eff) (at_step l t eff);
  fr_same : forall t eff, ~ W eff t -> at_step l' t eff = at_step l t eff }.

(** x is the reference at time tau of the rest-to-rest motion from p0 at time ta over v to p1 at time tb: position, and its two derivatives. *)
Definition on_swing (ta tb : R) (p0 v p1 : vec3) (tau : R) (x : effst) : Prop := forall i, (i < 3)%nat ->
  let path := fun u => swing (vget3 p0 i) (vget3 v i) (vget3 p1 i) ((u - ta) / (tb - ta)) in
  vget3 (e_pos x) i = path tau /\ exists w, (forall u, derivable_pt_lim path u (w u)) /\ vget3 (e_vel x) i = w tau /\ derivable_pt_lim w tau (vget3 (e_acc x) i).
(** The steps a..b of l' are a flight from (p0,q0) to (p1,q1) over v, turning during the first half. *)
Definition flies (l l' : list dstate) (eff a b : nat) (p0 : vec3) (q0 : quat) (v p1 : vec3) (q1 : quat) : Prop :=
  forall t, (a <= t <= b)%nat ->
    on_swing (clock l (S a)) (clock l (S b)) p0 v p1 (clock l (S t)) (at_step l' t eff) /\
    e_ori (at_step l' t eff) = slerp q0 (Rmin (2 * INR (t - a) / INR (S b - a)) 1) q1.
(** v is the position of the first viapoint with number k. *)
Definition first_via (vias : list viapoint) (k : Z) (v : vec3) : Prop := exists pre post, vias = pre ++ (k, v) :: post /\ forall x, In x pre -> fst x <> k.
(** The solver behind the trajectory generator solves the systems of trajectories with different start and end time. *)
Definition solves_swings (qr : nat -> (nat -> nat -> R) -> (nat -> R) -> (nat -> R)) : Prop :=
  forall tini pini tend pend via, tini < tend -> let p := swing_pos tini pini tend pend via in let r := swing_d tini tend in
    solves_if_regular qr 7 (reg_matrix p r r) (reg_vector p r r).

(** One end-effector with contacts c_0 .. c_(n-1): what is needed ... *)
Record plan_ok (l : list dstate) (ini : dstate) (eff : nat) (cl : list contact) (vias : list viapoint) (via : Z -> vec3) (start stop : nat -> nat) : Prop := {
  po_iv : intervals l eff (length cl) start stop;
  (** if it starts in the air, it is in the air for two steps at least, *)
  po_first : e_act (d_eff ini eff) = false -> (2 <= start 0)%nat;
  (** and the same at the end; *)
  po_last : stop (length cl - 1)%nat = length l \/ (stop (length cl - 1)%nat + 2 <= length l)%nat;
  (** there is a viapoint for every flight. *)
  po_via0 : e_act (d_eff ini eff) = false -> first_via vias (-1) (via (-1)%Z);
  po_via : forall k, (S k < length cl)%nat -> first_via vias (Z.of_nat k) (via (Z.of_nat k));
  po_via1 : (stop (length cl - 1) < length l)%nat -> first_via vias (Z.of_nat (length cl) - 1) (via (Z.of_nat (length cl) - 1)%Z) }.
(** ... and what results. *)
Record flown (l l' : list dstate) (ini : dstate) (com_motion : vec3) (eff : nat) (cl : list contact) (via : Z -> vec3) (start stop : nat -> nat) : Prop := {
  fl_first : e_act (d_eff ini eff) = false -> forall c, nth_error cl 0 = Some c ->
     flies l l' eff 0 (start 0%nat - 1) (e_pos (d_eff ini eff)) (e_ori (d_eff ini eff)) (via (-1)%Z) (c_pos c) (c_ori c);
  fl_mid : forall k c c', nth_error cl k = Some c -> nth_error cl (S k) = Some c' ->
     flies l l' eff (stop k) (start (S k) - 1) (c_pos c) (c_ori c) (via (Z.of_nat k)) (c_pos c') (c_ori c');
  fl_last : forall c, nth_error cl (length cl - 1) = Some c -> (stop (length cl - 1) < length l)%nat ->
     flies l l' eff (stop (length cl - 1)%nat) (length l - 1) (c_pos c) (c_ori c) (via (Z.of_nat (length cl) - 1)%Z) (vadd (e_pos (d_eff ini eff)) com_motion) (e_ori (d_eff ini eff)) }.
