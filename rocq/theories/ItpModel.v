(** * Model of the replay of a plan in Python
    Source: momentumopt/python/momentumopt/motion_planner.py l.24-31 (create_time_vector) and
    momentumopt/python/momentumopt/motion_execution.py l.46-205 (desired_state, interpolate), l.290-347 and l.349-512 (the control loop of MotionExecutor).
    Reals are exact.  [Throw] is a raised exception; [UB] a result with entries that are not finite numbers (numpy divides by zero with a warning only).
    Not modelled: the simulator, the plots, the interactive tuning, the steady-state loop l.362-378. *)
From Coq Require Import Reals List Arith Bool.
Import ListNotations.
From Verif Require Import Base Vec3 MkoModel.
Local Open Scope R_scope.

(** motion_planner.py l.24-31: time[0] = 0, time[i+1] = time[i] + dynamics_states[i].dt *)
Fixpoint times_from (t : R) (dts : list R) : list R := match dts with [] => [] | d :: r => t :: times_from (t + d) r end.
Definition create_time_vector (dts : list R) : list R := times_from 0 dts.

(** np.argmin: the first index of the smallest entry; ValueError for an empty array. *)
Fixpoint argmin_from (best : nat) (v : R) (i : nat) (l : list R) : nat :=
  match l with [] => best | x :: r => if Rlt_dec x v then argmin_from i x (S i) r else argmin_from best v (S i) r end.
Definition argmin (l : list R) : res nat := match l with [] => Throw | x :: r => Ok (argmin_from 0 x 1 r) end.

(** l.57-65 and l.141-149: the two neighbours of t. *)
Definition bracket (tv : list R) (t : R) : res (nat * nat) :=
  bind (argmin (map (fun x => Rabs (x - t)) tv)) (fun c =>
  if Rlt_dec t (nth c tv 0) then Ok (c - 1, c)%nat else Ok (c, Nat.min (c + 1) (length tv - 1))%nat).
(** (state_2 - state_1) / (time_vector[t2_idx] - time_vector[t1_idx]) * delta_t + state_1; operands of different sizes: ValueError
    (simplified: numpy also accepts size 1 against size n; the states of one sequence have one size). *)
Definition blend (t1 t2 t : R) (s1 s2 : list R) : res (list R) :=
  if (length s1 =? length s2)%nat then
    if Req_EM_T (t2 - t1) 0 then UB else Ok (map (fun p => (snd p - fst p) / (t2 - t1) * (t - t1) + fst p) (combine s1 s2))
  else Throw.
(** l.101-110 and l.194-203, with state(i) the state selected by the specification. *)
Definition eval_at (state : nat -> res (list R)) (tv : list R) (t : R) : res (list R) :=
  bind (bracket tv t) (fun b => let '(i1, i2) := b in
  bind (state i1) (fun s1 => bind (state i2) (fun s2 =>
  if (i2 <=? 0)%nat then Ok s1 else if (length tv - 1 <=? i1)%nat then Ok s1 else
  blend (nth i1 tv 0) (nth i2 tv 0) t s1 s2))).

(** The members of a kinematics state and of a dynamics state that are read (endeffectors: force, position). *)
Record kstate := KS { ks_joints : list R; ks_jvel : list R; ks_gpos : list R; ks_gvel : list R; ks_gacc : list R; ks_com : list R; ks_lmom : list R; ks_amom : list R }.
Record dstate := DS { ds_com : vec3; ds_eff : list (vec3 * vec3) }.
Definition vlist (v : vec3) : list R := [vx v; vy v; vz v].
(** eff_force_vector, l.51-55 and l.122-126; np.hstack([]) is a ValueError *)
Definition eff_force_vector (d : dstate) : res (list R) := match ds_eff d with [] => Throw | l => Ok (concat (map (fun e => vlist (fst e)) l)) end.
(** centroidal_force_vector, l.128-132 (effForce(0) exists: the C++ object always holds four end-effectors) *)
Definition centroidal_force (w : R) (d : dstate) : list R := vlist (fold_left (fun a e => vadd a (vscale w (fst e))) (ds_eff d) v0).
(** centroidal_moment_vector, l.134-139 *)
Definition centroidal_moment (w : R) (d : dstate) : list R :=
  vlist (fold_left (fun a e => vadd a (vcross (vsub (snd e) (ds_com d)) (vscale w (fst e)))) (ds_eff d) v0).
(** DynamicsFeedbackWrapper::forceGain (matrix as the list of its entries): the index is clamped; index 0 of no gains does not exist. *)
Definition force_gain (gains : list (list R)) (i : nat) : res (list R) := match nth_error gains (Nat.min i (length gains - 1)) with Some g => Ok g | None => UB end.

(** Reading an attribute of None: AttributeError. *)
Definition need {A} (o : option A) : res A := match o with Some a => Ok a | None => Throw end.
(** The end-effector trajectories of the kinematics, motion_eff. *)
Record motioneff := ME { me_traj_base : list (list R); me_vel_base : list (list R); me_traj : list (list R); me_vel : list (list R) }.

(** desired_state, l.46-112, for the names that it knows. *)
Inductive dspec := DPosition | DVelocity | DGenPosition | DGenVelocity | DGenAcceleration | DForces | DCom | DLmom | DAmom | DFeedback.
Definition dselect (sp : dspec) (sq : option (list kstate)) (fb : option (list (list R))) (dy : option (list dstate)) (i : nat) : res (list R) :=
  let k f := bind (need sq) (fun l => bind (pyget l i) (fun s => Ok (f s))) in
  match sp with
  | DPosition => k ks_joints | DVelocity => k ks_jvel | DGenPosition => k ks_gpos | DGenVelocity => k ks_gvel | DGenAcceleration => k ks_gacc
  | DForces => bind (need dy) (fun l => bind (pyget l i) eff_force_vector)
  | DCom => k ks_com | DLmom => k ks_lmom | DAmom => k ks_amom
  | DFeedback => bind (need fb) (fun g => force_gain g i)
  end.
Definition desired_state (sp : dspec) (tv : list R) sq fb dy : res (R -> res (list R)) :=
  match sq, fb with None, None => Throw | _, _ => Ok (eval_at (dselect sp sq fb dy) tv) end.

(** interpolate, l.114-205. *)
Inductive ispec := IPosition | IVelocity | IPositionAbs | IVelocityAbs | ICom | ILmom | IAmom | IFeedback | IForces | ICentroidalForces | ICentroidalMoments | IQuaternion | IBaseAngVel.
Definition iselect (sp : ispec) (me : option motioneff) (sq : option (list kstate)) (fb : option (list (list R))) (dy : option (list dstate)) (w : option R) (i : nat) : res (list R) :=
  let k f := bind (need sq) (fun l => bind (pyget l i) (fun s => Ok (f s))) in
  let m f := bind (need me) (fun e => pyget (f e) i) in
  let d f := bind (need dy) (fun l => bind (pyget l i) (fun s => f s)) in
  match sp with
  | IPosition => m me_traj_base | IVelocity => m me_vel_base | IPositionAbs => m me_traj | IVelocityAbs => m me_vel
  | ICom => k ks_com | ILmom => k ks_lmom | IAmom => k ks_amom
  | IFeedback => bind (need fb) (fun g => force_gain g i)
  | IForces => d eff_force_vector
  | ICentroidalForces => d (fun s => bind (need w) (fun w => Ok (centroidal_force w s)))
  | ICentroidalMoments => d (fun s => bind (need w) (fun w => Ok (centroidal_moment w s)))
  | IQuaternion => k (fun s => firstn 4 (skipn 3 (ks_gpos s)))
  | IBaseAngVel => k (fun s => firstn 3 (skipn 3 (ks_gvel s)))
  end.
Definition interpolate (sp : ispec) (tv : list R) me sq fb dy w : res (R -> res (list R)) :=
  match me, fb, sq, dy with None, None, None, None => Throw | _, _, _, _ => Ok (eval_at (iselect sp me sq fb dy w) tv) end.

(** ** The control loop of MotionExecutor, l.420-512 *)
(** limit_torques, l.344-347, one entry: first the lower, then the upper bound. *)
Definition limit_torque (lo hi x : R) : R := let y := if Rlt_dec x lo then lo else x in if Rlt_dec hi y then hi else y.
(** l.444-445, l.478-480, one joint: PD term, the column of the end-effector Jacobians times the forces, limits. *)
Definition joint_command (lo hi P D qerr dqerr : R) (jac force delta : list R) : R :=
  limit_torque lo hi (P * qerr + D * dqerr + fold_right Rplus 0 (map (fun p => fst p * (fst (snd p) + snd (snd p))) (combine jac (combine force delta)))).
(** l.429-431 and l.451: one pass at loop number [k]: the index of the force that is applied. *)
Definition pass (tv : list R) (k time_id : nat) : res nat :=
  bind (pyget tv time_id) (fun x => let id := if Rlt_dec x (INR k / 1000) then S time_id else time_id in
  if (id <? length tv)%nat then Ok id else Throw).
(** l.421-512: [n] passes; the indices used. *)
Fixpoint passes (tv : list R) (n k time_id : nat) : res (list nat) :=
  match n with O => Ok [] | S n' => bind (pass tv k time_id) (fun id => bind (passes tv n' (S k) id) (fun r => Ok (id :: r))) end.
(** l.388-389: time_horizon = 4.0 *)
Definition max_num_iterations : nat := 4000%nat.
Definition execute (tv : list R) : res (list nat) := passes tv max_num_iterations 0 0.
(** l.463-466 with the array t_vec as it is before pass [k]: entry i is i/1000 for i < k, and what it was before (zero, or the last execution) otherwise. *)
Definition t_vec_last (n k : nat) (old : R) : R := if (n - 1 <? k)%nat then INR (n - 1) / 1000 else old.
Definition delta_t (n k : nat) (old : R) : R := if (k =? 0)%nat then 0 else INR k / 1000 - t_vec_last n k old.
(** l.331-335: the velocity from the difference of two configurations. *)
Definition velocity_of (dt : R) (diff : list R) : list R := if Rlt_dec dt (/ 10 ^ 8) then map (fun _ => 0) diff else map (fun x => x / dt) diff.
