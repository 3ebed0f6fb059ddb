(** * Specification: the trajectory files *)
From Coq Require Import String Reals List Arith ZArith Bool.
Import ListNotations.
From Verif Require Import Base Vec3 ItpModel ItpSpec DatModel.
Local Open Scope R_scope.

(** N rows; row i is i followed by (scale times) the value at millisecond i of the curve through the states s. *)
Definition sampled (N : nat) (scale : R) (tv : list R) (s : nat -> list R) (a : array) : Prop :=
  List.length a = N /\ forall i, (i < N)%nat -> exists v, on_curve tv s (INR i / 1000) v /\ nth i a [] = INR i :: map (Rmult scale) v.
(** The same for four feet, three coordinates each, the foot in place e of the file being foot [order e] of the plan. *)
Definition sampled_feet (order : nat -> nat) (N : nat) (tv : list R) (s : nat -> list R) (a : array) : Prop :=
  List.length a = N /\ forall i, (i < N)%nat -> exists v, on_curve tv s (INR i / 1000) v /\ List.length (nth i a []) = 13%nat /\ nth 0 (nth i a []) 0 = INR i /\
  forall e c, (e < 4)%nat -> (c < 3)%nat -> nth (1 + 3 * e + c) (nth i a []) 0 = nth (3 * order e + c) v 0.
(** Six entries per foot, no index: position (or velocity) and three zeros. *)
Definition sampled_six (order : nat -> nat) (N : nat) (tv : list R) (s : nat -> list R) (a : array) : Prop :=
  List.length a = N /\ forall i, (i < N)%nat -> exists v, on_curve tv s (INR i / 1000) v /\ List.length (nth i a []) = 24%nat /\
  forall e c, (e < 4)%nat -> (c < 3)%nat -> nth (6 * e + c) (nth i a []) 0 = nth (3 * order e + c) v 0 /\ nth (6 * e + 3 + c) (nth i a []) 0 = 0.
(** Row i: i, then for each foot 1 exactly if its interpolated vertical force is positive. *)
Definition sampled_contacts (order : nat -> nat) (N : nat) (tv : list R) (s : nat -> list R) (a : array) : Prop :=
  List.length a = N /\ forall i, (i < N)%nat -> exists v, on_curve tv s (INR i / 1000) v /\ List.length (nth i a []) = 5%nat /\ nth 0 (nth i a []) 0 = INR i /\
  forall e, (e < 4)%nat -> (0 < nth (3 * order e + 2) v 0 -> nth (1 + e) (nth i a []) 0 = 1) /\ (nth (3 * order e + 2) v 0 <= 0 -> nth (1 + e) (nth i a []) 0 = 0).
(** Left and right exchanged; first and last, and the middle two, exchanged. *)
Definition sides_exchanged (e : nat) : nat := match e with 0 => 1 | 1 => 0 | 2 => 3 | _ => 2 end%nat.
Definition reversed (e : nat) : nat := (3 - e)%nat.

(** A plan whose states have the sizes of a quadruped: nj joints, four feet. *)
Record quadruped_plan (n nj : nat) (me : motioneff) (sq : list kstate) (dy : list dstate) : Prop := {
  qp_len : List.length (me_traj_base me) = n /\ List.length (me_vel_base me) = n /\ List.length (me_traj me) = n /\ List.length (me_vel me) = n /\ List.length sq = n /\ List.length dy = n;
  qp_eff : forall i, (i < n)%nat -> List.length (nth i (me_traj_base me) []) = 12%nat /\ List.length (nth i (me_vel_base me) []) = 12%nat /\
    List.length (nth i (me_traj me) []) = 12%nat /\ List.length (nth i (me_vel me) []) = 12%nat;
  qp_kin : forall i, (i < n)%nat -> let k := nth i sq kdef in List.length (ks_joints k) = nj /\ List.length (ks_jvel k) = nj /\ List.length (ks_gpos k) = (nj + 7)%nat /\
    List.length (ks_gvel k) = (nj + 6)%nat /\ List.length (ks_gacc k) = (nj + 6)%nat /\ List.length (ks_com k) = 3%nat /\ List.length (ks_lmom k) = 3%nat /\ List.length (ks_amom k) = 3%nat;
  qp_dyn : forall i, (i < n)%nat -> List.length (ds_eff (nth i dy ddef)) = 4%nat }.
(** The last time stamp. *)
Definition horizon (tv : list R) : R := stamp tv (List.length tv - 1).
(** The files of create_file: name, factor, quantity. *)
Definition file_table (weight : R) : list (string * R * dspec) :=
  [("quadruped_positions.dat"%string, 1, DPosition); ("quadruped_velocities.dat"%string, 1, DVelocity); ("quadruped_forces.dat"%string, weight, DForces);
   ("quadruped_generalized_positions.dat"%string, 1, DGenPosition); ("quadruped_generalized_velocities.dat"%string, 1, DGenVelocity);
   ("quadruped_generalized_acceleration.dat"%string, 1, DGenAcceleration); ("quadruped_com_old.dat"%string, 1, DCom); ("quadruped_lmom_old.dat"%string, 1, DLmom); ("quadruped_amom_old.dat"%string, 1, DAmom)].
(** The files of create_qp_files that hold one vector after the index: name, factor, quantity. *)
Definition qp_vector_table (weight : R) : list (string * R * ispec) :=
  [("quadruped_com.dat"%string, 1, ICom); ("quadruped_com_vel.dat"%string, 1 / (weight / (981 / 100)), ILmom); ("quadruped_centroidal_forces.dat"%string, 1, ICentroidalForces);
   ("quadruped_centroidal_moments.dat"%string, 1, ICentroidalMoments); ("quadruped_quaternion.dat"%string, 1, IQuaternion); ("quadruped_base_ang_velocities.dat"%string, 1, IBaseAngVel)].
(** The files of create_qp_files with three, and with six, entries per foot. *)
Definition qp_feet_table : list (string * ispec) := [("quadruped_positions_abs.dat"%string, IPositionAbs); ("quadruped_velocities_abs.dat"%string, IVelocityAbs)].
Definition qp_six_table : list (string * ispec) := [("quadruped_positions_eff.dat"%string, IPosition); ("quadruped_velocities_eff.dat"%string, IVelocity)].
Definition qp_other_names : list string := ["quadruped_positions.dat"%string; "quadruped_velocities.dat"%string; "quadruped_contact_activation.dat"%string; "quadruped_gain_ratio.dat"%string].
(** All names that create_qp_files writes. *)
Definition qp_names (weight : R) : list string := map (fun x => fst (fst x)) (qp_vector_table weight) ++ map fst qp_feet_table ++ map fst qp_six_table ++ qp_other_names.
