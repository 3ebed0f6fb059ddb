(** * Specification: replaying a plan *)
From Coq Require Import Reals List Arith Bool.
Import ListNotations.
From Verif Require Import Base Vec3 ItpModel.
Local Open Scope R_scope.

(** Time stamps t_0 < t_1 < ... of the n states of a plan. *)
Definition stamp (tv : list R) (i : nat) : R := nth i tv 0.
Definition increasing (tv : list R) : Prop := forall i, (S i < length tv)%nat -> stamp tv i < stamp tv (S i).
(** The point at fraction l of the way from a to b. *)
Definition between (l : R) (a b : list R) : list R := map (fun p => (1 - l) * fst p + l * snd p) (combine a b).
(** v is the value at time t of the piecewise linear curve through the states s 0, s 1, ... at their time stamps, constant before and after. *)
Record on_curve (tv : list R) (s : nat -> list R) (t : R) (v : list R) : Prop := {
  oc_before : t <= stamp tv 0 -> v = s 0%nat;
  oc_after : stamp tv (length tv - 1) <= t -> v = s (length tv - 1)%nat;
  oc_between : forall i, (S i < length tv)%nat -> stamp tv i <= t <= stamp tv (S i) -> v = between ((t - stamp tv i) / (stamp tv (S i) - stamp tv i)) (s i) (s (S i)) }.

Definition kdef : kstate := KS [] [] [] [] [] [] [] [].
Definition ddef : dstate := DS v0 [].
(** What a name stands for, at the i-th state. *)
Definition kin (f : kstate -> list R) (sq : list kstate) (i : nat) : list R := f (nth i sq kdef).
Definition forces (d : dstate) : list R := concat (map (fun e => vlist (fst e)) (ds_eff d)).
(** Total contact force and total moment about the centre of mass; forces in a plan are divided by the weight w. *)
Definition total (l : list vec3) : vec3 := fold_right vadd v0 l.
Definition total_force (w : R) (d : dstate) : list R := vlist (vscale w (total (map fst (ds_eff d)))).
Definition total_moment (w : R) (d : dstate) : list R := vlist (vscale w (total (map (fun e => vcross (vsub (snd e) (ds_com d)) (fst e)) (ds_eff d)))).
Definition d_meaning (sp : dspec) (sq : list kstate) (gains : list (list R)) (dy : list dstate) (i : nat) : list R :=
  match sp with
  | DPosition => kin ks_joints sq i | DVelocity => kin ks_jvel sq i | DGenPosition => kin ks_gpos sq i | DGenVelocity => kin ks_gvel sq i
  | DGenAcceleration => kin ks_gacc sq i | DCom => kin ks_com sq i | DLmom => kin ks_lmom sq i | DAmom => kin ks_amom sq i
  | DForces => forces (nth i dy ddef) | DFeedback => nth i gains []
  end.
Definition i_meaning (sp : ispec) (me : motioneff) (sq : list kstate) (gains : list (list R)) (dy : list dstate) (w : R) (i : nat) : list R :=
  match sp with
  | IPosition => nth i (me_traj_base me) [] | IVelocity => nth i (me_vel_base me) [] | IPositionAbs => nth i (me_traj me) [] | IVelocityAbs => nth i (me_vel me) []
  | ICom => kin ks_com sq i | ILmom => kin ks_lmom sq i | IAmom => kin ks_amom sq i | IFeedback => nth i gains []
  | IForces => forces (nth i dy ddef) | ICentroidalForces => total_force w (nth i dy ddef) | ICentroidalMoments => total_moment w (nth i dy ddef)
  | IQuaternion => map (fun j => nth j (kin ks_gpos sq i) 0) [3; 4; 5; 6]%nat | IBaseAngVel => map (fun j => nth j (kin ks_gvel sq i) 0) [3; 4; 5]%nat
  end.
(** A plan of n states: every sequence has n entries, contact forces of at least one end-effector, generalized coordinates with a floating base. *)
Definition plan (n : nat) (me : motioneff) (sq : list kstate) (gains : list (list R)) (dy : list dstate) : Prop :=
  length (me_traj_base me) = n /\ length (me_vel_base me) = n /\ length (me_traj me) = n /\ length (me_vel me) = n /\ length sq = n /\ length gains = n /\ length dy = n /\
  (forall i, (i < n)%nat -> ds_eff (nth i dy ddef) <> []) /\ (forall i, (i < n)%nat -> (7 <= length (kin ks_gpos sq i))%nat /\ (6 <= length (kin ks_gvel sq i))%nat).
(** All entries of a sequence have the same size. *)
Definition same_size (n : nat) (s : nat -> list R) : Prop := forall i, (i < n)%nat -> length (s i) = length (s 0%nat).

(** ** Time *)
Fixpoint total_time (n : nat) (dts : list R) : R := match n, dts with S m, d :: r => d + total_time m r | _, _ => 0 end.
(** The planner's own rule for the centre of mass (one coordinate): the step that leads to state i+1 takes the time dt of state i+1. *)
Definition follows_momentum (m : R) (dts com lmom : list R) : Prop :=
  forall i, (S i < length dts)%nat -> nth (S i) com 0 = nth i com 0 + nth (S i) dts 0 * (nth (S i) lmom 0 / m).

(** ** Execution *)
(** The plan has a state at least every millisecond apart (the control period), the first at time 0. *)
Definition steps_at_least_1ms (tv : list R) : Prop := stamp tv 0 = 0 /\ forall i, (S i < length tv)%nat -> stamp tv i + / 1000 <= stamp tv (S i).
(** At time t the state in force is the first one whose time stamp is not before t. *)
Definition in_force (tv : list R) (t : R) (i : nat) : Prop := (i < length tv)%nat /\ t <= stamp tv i /\ forall j, (j < i)%nat -> stamp tv j < t.
