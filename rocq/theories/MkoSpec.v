(** * Specification: the motion computed by inverse kinematics *)
From Coq Require Import Reals List Arith Bool.
Import ListNotations.
From Verif Require Import Base Vec3 PyqpModel PyqpSpec IkModel IkSpec MkoModel.
Local Open Scope R_scope.

Definition entries (d : config) : nat -> R := fun j => nth j d 0.
(** No end-effector touches the ground at step it. *)
Definition in_flight (rb : robot) (g : mkin) (it : nat) : Prop := forall e, (e < r_ne rb)%nat -> mk_act g it e = false.
(** Step s has a contact and the k steps after it have none. *)
Definition flight_from (rb : robot) (g : mkin) (s k : nat) : Prop := ~ in_flight rb g s /\ forall j, (s < j <= s + k)%nat -> in_flight rb g j.
(** Momentum references: planned in contact; in the k-th step of a flight that began after step s the momentum M at the end of s, less gravity. *)
Definition lin_ref (g : mkin) (M : nat -> nat -> R) (s k : nat) : vec3 :=
  match k with O => mk_lmom g s | _ => V3 (M s 0%nat) (M s 1%nat) (vz (mk_lmom g s) - INR k * (mk_weight g * mk_dt g)) end.
Definition ang_ref (g : mkin) (olog : list R -> config -> vec3) (base_des : list (list R)) (M : nat -> nat -> R) (Q : nat -> config) (s k : nat) : vec3 :=
  match k with O => vadd (vscale (mk_regori g) (olog (nth s base_des []) (Q s))) (mk_amom g s) | _ => V3 (M s 3%nat) (M s 4%nat) (M s 5%nat) end.
(** What the inverse kinematics is asked at step s + k. *)
Definition query (g : mkin) olog (joint_des base_des : list (list R)) (M : nat -> nat -> R) (Q DQ : nat -> config) (s k : nat) : ikarg :=
  let it := (s + k)%nat in
  IkA (Q it) (DQ it) (mk_com g it) (lin_ref g M s k) (ang_ref g olog base_des M Q s k) (mk_pos g it) (mk_vel g it) (mk_contact g it)
    (Some (PV (length (skipn 7 (Q it))) (fun j => mk_regjoint g * (nth j (nth it joint_des []) 0 - nth j (skipn 7 (Q it)) 0)))) (negb (k =? 0)%nat).
(** The settings, with the tracking gain p_track (the gain 1 is for the search of the initial configuration). *)
Definition gains_after_init (st : iksetting) : iksetting :=
  IkS (w_track st) (w_contact st) (w_lin st) (w_ang st) (w_joint st) (p_track st) (p_com st) false.
(** Q 0, DQ 0, Q 1, DQ 1, ...: every velocity minimises the task errors at the configuration before it, every configuration is reached with the velocity stored with it.
    M s is the momentum, at the configuration before s, of the velocity of s. *)
Record motion rb (integ : config -> config -> config) olog (st : iksetting) (g : mkin) (joint_des base_des : list (list R)) (M0 : nat -> R) (q0 dq0 : config) (n : nat) (Q DQ : nat -> config) : Prop := {
  mo_start : Q 0%nat = q0 /\ DQ 0%nat = dq0;
  mo_first : (0 < n)%nat -> ~ in_flight rb g 0;
  mo_step : forall s k, (s + k < n)%nat -> flight_from rb g s k ->
    let M := fun s i => match s with O => M0 i | S p => momentum_of rb (Q p) (entries (DQ s)) i end in
    let a := query g olog joint_des base_des M Q DQ s k in
    length (DQ (S (s + k))) = r_nv rb /\ minimises (admissible rb a) (task_cost rb (gains_after_init st) a) (entries (DQ (S (s + k)))) /\
    Q (S (s + k)) = integ (Q (s + k)%nat) (map (Rmult (mk_dt g)) (DQ (S (s + k)))) }.
(** What is recorded for one step. *)
Definition records (rb : robot) (r : kres) (q dq : config) : Prop :=
  o_q r = q /\ o_dq r = dq /\ o_com r = r_com rb q /\ (forall i, (i < 6)%nat -> o_mom r i = momentum_of rb q (entries dq) i) /\ (forall e, o_pos r e = r_pos rb q e).

(** ** Regularisation trajectory: knots (time in steps, value of coordinate j): the first value at 0, the via points, the last value at the end. *)
Definition knot (via : list (list R)) (dt : R) (j : nat) (x0 xe : R) (N n : nat) (i : nat) : R * R :=
  match i with O => (0, x0) | S k => if (k =? n)%nat then (INR N, xe) else (nth 0 (nth k via []) 0 / dt, nth (j + 1) (nth k via []) 0) end.
(** Between two knots: minimum jerk. *)
Definition min_jerk (a b : R * R) (t : R) : R := let s := (t - fst a) / (fst b - fst a) in snd a + (snd b - snd a) * (10 * s ^ 3 - 15 * s ^ 4 + 6 * s ^ 5).
(** n via points with a time and a value for each of c coordinates. *)
Definition via_shape (via : list (list R)) (n c : nat) : Prop := (n <= length via)%nat /\ forall k, (k < n)%nat -> (c < length (nth k via []))%nat.
