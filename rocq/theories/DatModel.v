(** * Model of the trajectory files
    Source: momentumopt/python/momentumopt/kinoptpy/create_data_file.py (create_file l.18-64, create_qp_files l.66-192, create_lqr_files l.196-320).
    A file is the list of its rows; the text format of np.savetxt is not modelled, nor which files exist already when an exception ends a function.
    Reals are exact.  [Throw]: exception; [UB]: entries that are not finite numbers.  using_quadruped is always True. *)
From Coq Require Import String Reals List Arith ZArith Bool.
Import ListNotations.
From Verif Require Import Base Vec3 MkoModel ItpModel.
Local Open Scope R_scope.

Definition row := list R.
Definition array := list row.
Definition files := list (string * array).
(** np.savetxt: a file of the same name is replaced. *)
Definition savetxt (name : string) (a : array) (fs : files) : files := (name, a) :: fs.
(** Reading a file back: the latest contents. *)
Fixpoint contents (fs : files) (name : string) : option array := match fs with [] => None | (n, a) :: r => if string_dec n name then Some a else contents r name end.

(** round(x): to the nearest integer, half to even; int(x) for x >= 0 is Int_part. *)
Definition py_round (x : R) : Z := let z := Int_part (x + / 2) in if Req_EM_T (IZR z) (x + / 2) then if Z.even z then z else (z - 1)%Z else z.
(** time_vector[-1] *)
Definition last_time (tv : list R) : res R := match tv with [] => Throw | _ => Ok (nth (List.length tv - 1) tv 0) end.
Definition ms (i : nat) : R := INR i / 1000.

(** ** create_file *)
(** dump_data, l.37-40: the rows (i, scale * f(i / 1e3)); np.vstack([]) is a ValueError.  (Rows of different sizes, also a ValueError, do not occur: simplified.) *)
Definition dump_rows (n : nat) (scale : R) (f : R -> res (list R)) : res array :=
  match n with O => Throw | _ => mapM (fun i => bind (f (ms i)) (fun v => Ok (INR i :: map (Rmult scale) v))) (seq 0 n) end.
Definition dump_data (n : nat) (name : string) (f : R -> res (list R)) (scale : R) (fs : files) : res files := bind (dump_rows n scale f) (fun a => Ok (savetxt name a fs)).
(** l.34: num_points = int(round(time_vector[-1] * sample_frequency)) *)
Definition file_points (tv : list R) : res nat := bind (last_time tv) (fun T => Ok (Z.to_nat (py_round (T * 1000)))).
Definition create_file (tv : list R) (sq : list kstate) (dy : list dstate) (weight : R) (fs : files) : res files :=
  let des sp d := desired_state sp tv (Some sq) None d in
  bind (des DPosition None) (fun pos => bind (des DVelocity None) (fun vel => bind (des DGenPosition None) (fun gpos => bind (des DGenVelocity None) (fun gvel =>
  bind (des DGenAcceleration None) (fun gacc => bind (des DCom None) (fun com => bind (des DLmom None) (fun lmom => bind (des DAmom None) (fun amom =>
  bind (des DForces (Some dy)) (fun frc => bind (file_points tv) (fun n =>
  bind (dump_data n "quadruped_positions.dat" pos 1 fs) (fun fs => bind (dump_data n "quadruped_velocities.dat" vel 1 fs) (fun fs =>
  bind (dump_data n "quadruped_forces.dat" frc weight fs) (fun fs => bind (dump_data n "quadruped_generalized_positions.dat" gpos 1 fs) (fun fs =>
  bind (dump_data n "quadruped_generalized_velocities.dat" gvel 1 fs) (fun fs => bind (dump_data n "quadruped_generalized_acceleration.dat" gacc 1 fs) (fun fs =>
  bind (dump_data n "quadruped_com_old.dat" com 1 fs) (fun fs => bind (dump_data n "quadruped_lmom_old.dat" lmom 1 fs) (fun fs =>
  dump_data n "quadruped_amom_old.dat" amom 1 fs)))))))))))))))))).

(** ** create_qp_files and create_lqr_files *)
(** l.84-90 and l.213-219 *)
Definition qp_points (tv : list R) : res nat :=
  bind (last_time tv) (fun T => let k := Int_part T in Ok (Z.to_nat (if Rlt_dec (/ 1000) (T - IZR k) then (k + 1) * 1000 else k * 1000)%Z)).
(** np.zeros((n, c)); a[i, :] = v (ValueError if v has not c entries); a[i:, ] = v *)
Definition zeros (n c : nat) : array := repeat (repeat 0 c) n.
Definition set_row (c : nat) (a : array) (i : nat) (v : row) : res array := if (List.length v =? c)%nat then Ok (set_nth a i v) else Throw.
Definition set_rows_from (c : nat) (a : array) (i : nat) (v : row) : res array :=
  if (List.length v =? c)%nat then Ok (firstn i a ++ repeat v (List.length a - i)) else Throw.
(** The loops l.121-142 and l.239-247, one array at a time (the arrays do not depend on each other). *)
Definition fill (put : nat -> array -> nat -> row -> res array) (n c : nat) (f : R -> res (list R)) : res array :=
  foldM (fun a i => bind (f (ms i)) (fun v => put c a i (INR i :: v))) (seq 0 n) (zeros n c).
(** l.147-149: exchange of the columns 1-3 with 4-6 and 7-9 with 10-12; l.269-278: 1-3 with 10-12 and 4-6 with 7-9 *)
Definition columns (p : list nat) (r : row) : row := map (fun j => nth j r 0) p.
Definition swap_pairs : row -> row := columns [0; 4; 5; 6; 1; 2; 3; 10; 11; 12; 7; 8; 9]%nat.
Definition swap_ends : row -> row := columns [0; 10; 11; 12; 7; 8; 9; 4; 5; 6; 1; 2; 3]%nat.
(** l.158-164 *)
Definition activation (i : nat) (r : row) : row := INR i :: map (fun j => if Rlt_dec 0 (nth (3 * j + 3) r 0) then 1 else 0) (seq 0 4).
Definition activations (a : array) : array := map (fun p => activation (fst p) (snd p)) (combine (seq 0 (List.length a)) a).
(** l.173-176: per foot three entries and three zeros, without the leading index *)
Definition six (r : row) : row := List.concat (map (fun e => [nth (3 * e + 1) r 0; nth (3 * e + 2) r 0; nth (3 * e + 3) r 0; 0; 0; 0]) (seq 0 4)).
(** l.133: desired_lmom / (robot_weight / 9.81) *)
Definition divided (d : R) (f : R -> res (list R)) (t : R) : res (list R) := bind (f t) (fun v => if Req_EM_T d 0 then UB else Ok (map (fun x => x / d) v)).

Definition create_qp_files (tv : list R) (me : motioneff) (sq : list kstate) (dy : list dstate) (weight : R) (fs : files) : res files :=
  let kin sp := interpolate sp tv (Some me) (Some sq) None None None in
  bind (desired_state DPosition tv (Some sq) None None) (fun jpos => bind (desired_state DVelocity tv (Some sq) None None) (fun jvel =>
  bind (kin IPosition) (fun pos => bind (kin IVelocity) (fun vel => bind (kin ICom) (fun com => bind (kin ILmom) (fun lmom =>
  bind (interpolate IForces tv None None None (Some dy) None) (fun frc => bind (interpolate IQuaternion tv None (Some sq) None None None) (fun qua =>
  bind (interpolate ICentroidalForces tv None None None (Some dy) (Some weight)) (fun cfrc => bind (interpolate ICentroidalMoments tv None None None (Some dy) (Some weight)) (fun cmom =>
  bind (interpolate IBaseAngVel tv None (Some sq) None None None) (fun bang => bind (kin IPositionAbs) (fun posa => bind (kin IVelocityAbs) (fun vela =>
  bind (qp_points tv) (fun n => bind (pyget sq 0) (fun s0 => let nj := (List.length (ks_gpos s0) - 7)%nat in
  bind (fill set_rows_from n 13 frc) (fun aF => bind (fill set_rows_from n 4 cfrc) (fun aCF => bind (fill set_rows_from n 4 cmom) (fun aCM =>
  bind (fill set_row n (nj + 1) jpos) (fun aJ => bind (fill set_row n (nj + 1) jvel) (fun aJV => bind (fill set_row n 13 pos) (fun aP => bind (fill set_row n 13 vel) (fun aV =>
  bind (fill set_row n 4 com) (fun aC => bind (fill set_row n 4 (divided (weight / (981 / 100)) lmom)) (fun aCV => bind (fill set_row n 5 qua) (fun aQ => bind (fill set_row n 4 bang) (fun aB =>
  bind (fill set_row n 13 posa) (fun aPA => bind (fill set_row n 13 vela) (fun aVA =>
  let aF := map swap_pairs aF in let aP := map swap_pairs aP in let aV := map swap_pairs aV in let aPA := map swap_pairs aPA in let aVA := map swap_pairs aVA in
  let pos6 := map six aP in let vel6 := map six aV in
  let fs := savetxt "quadruped_positions.dat" aJ fs in let fs := savetxt "quadruped_velocities.dat" vel6 fs in
  let fs := savetxt "quadruped_positions_eff.dat" pos6 fs in let fs := savetxt "quadruped_velocities_eff.dat" vel6 fs in
  let fs := savetxt "quadruped_com.dat" aC fs in let fs := savetxt "quadruped_com_vel.dat" aCV fs in
  let fs := savetxt "quadruped_centroidal_forces.dat" aCF fs in let fs := savetxt "quadruped_centroidal_moments.dat" aCM fs in
  let fs := savetxt "quadruped_quaternion.dat" aQ fs in let fs := savetxt "quadruped_base_ang_velocities.dat" aB fs in
  let fs := savetxt "quadruped_positions_abs.dat" aPA fs in let fs := savetxt "quadruped_velocities_abs.dat" aVA fs in
  let fs := savetxt "quadruped_contact_activation.dat" (activations aF) fs in
  Ok (savetxt "quadruped_gain_ratio.dat" (map (fun i => INR i :: repeat 0 8) (seq 0 n)) fs))))))))))))))))))))))))))))).

(** create_lqr_files with save_horizon = 0: of the arrays that are computed only the absolute positions are written (l.318). *)
Definition create_lqr_files (tv : list R) (me : motioneff) (sq : list kstate) (fb : option (list (list R))) (dy : list dstate) (weight : R) (fs : files) : res files :=
  let kin sp := interpolate sp tv (Some me) (Some sq) None None None in
  bind (interpolate IFeedback tv None None fb None None) (fun _ =>
  bind (kin IPosition) (fun pos => bind (kin IVelocity) (fun vel => bind (kin ICom) (fun com => bind (kin ILmom) (fun lmom =>
  bind (interpolate IForces tv None None None (Some dy) None) (fun frc => bind (interpolate IQuaternion tv None (Some sq) None None None) (fun qua =>
  bind (interpolate IBaseAngVel tv None (Some sq) None None None) (fun bang => bind (kin IPositionAbs) (fun posa =>
  bind (qp_points tv) (fun n =>
  bind (fill set_row n 13 pos) (fun _ => bind (fill set_row n 13 vel) (fun _ => bind (fill set_row n 13 frc) (fun _ => bind (fill set_row n 4 com) (fun _ => bind (fill set_row n 4 lmom) (fun _ =>
  bind (fill set_row n 5 qua) (fun _ => bind (fill set_row n 4 bang) (fun _ => bind (fill set_row n 13 posa) (fun aPA =>
  Ok (savetxt "quadruped_positions_abs_with_horizon_part.dat" (map swap_ends aPA) fs))))))))))))))))))).
