(** * Model of the kinematics over the whole motion
    Source: momentumopt/python/momentumopt/kinoptpy/momentum_kinematics_optimizer.py l.126-417 (first-order inverse kinematics; the second-order
    one is in SoModel; plotting and printing are not modelled).  Reals are exact; a raised exception is [Throw]. *)
From Coq Require Import Reals List Arith Bool.
Import ListNotations.
From Verif Require Import Base Vec3 PyqpModel PolyModel IkModel.
Local Open Scope R_scope.

(** Indexing a Python list: IndexError outside (negative indices do not occur). *)
Definition pyget {A} (l : list A) (i : nat) : res A := match nth_error l i with Some a => Ok a | None => Throw end.
Fixpoint mapM {A B} (f : A -> res B) (l : list A) : res (list B) := match l with [] => Ok [] | a :: r => bind (f a) (fun b => bind (mapM f r) (fun bs => Ok (b :: bs))) end.

(** ** TrajectoryInterpolator, l.126-159 *)
Section Interpolator.
  Variable solve : list (list R) -> list R -> option (list R).   (* numpy.linalg.solve *)
  Variables (N n_via : nat) (via : list (list R)) (dt : R).
  (** q_via[i][k]; q_via[i][0]/dt (ZeroDivisionError) *)
  Definition via_get (i k : nat) : res R := bind (pyget via i) (fun r => pyget r k).
  Definition via_time (i : nat) : res R := if Req_EM_T dt 0 then Throw else bind (via_get i 0) (fun t => Ok (t / dt)).
  Definition piece (t0 t1 x0 x1 : R) : res plist := bind (poly_points solve t0 t1 x0 x1 None) (fun p => Ok [((t0, t1), p)]).
  (** The body of the inner loop, l.139-153: pass i for coordinate j with first value x0 and last value xe. *)
  Definition segment (j : nat) (x0 xe : R) (i : nat) : res plist :=
    match i with
    | O => bind (via_time 0) (fun t => bind (via_get 0 (j + 1)) (fun x => piece 0 t x0 x))
    | S k =>
      if (i =? n_via)%nat then bind (via_time k) (fun t => if Req_EM_T t (INR N) then Ok [] else bind (via_get k (j + 1)) (fun x => piece t (INR N) x xe))
      else bind (via_time k) (fun t => bind (via_time i) (fun t' => bind (via_get k (j + 1)) (fun x => bind (via_get i (j + 1)) (fun x' => piece t t' x x'))))
    end.
  (** generate_trajectory for coordinate j *)
  Definition generate_traj (j : nat) (x0 xe : R) : res plist := foldM (fun l i => bind (segment j x0 xe i) (fun s => Ok (l ++ s))) (seq 0 (S n_via)) [].
  (** All coordinates (self.init = self.end = [init] in both uses), evaluate_trajecory at the steps 0..N-1. *)
  Definition interpolated (init : list R) : res (list (list R)) :=
    bind (mapM (fun jx => generate_traj (fst jx) (snd jx) (snd jx)) (combine (seq 0 (length init)) init)) (fun trs =>
    mapM (fun it => mapM (fun tr => list_eval tr (INR it)) trs) (seq 0 N)).
  (** l.337-365: regularisation trajectories; constant without via points. *)
  Definition regularisation (init : list R) : res (list (list R)) := if (n_via =? 0)%nat then Ok (repeat init N) else interpolated init.
End Interpolator.

(** ** MomentumKinematicsOptimizer *)
(** One row of q_kin, dq_kin, com_kin, (lmom_kin, amom_kin), motion_eff['trajectory'], motion_eff['velocity']. *)
Record kres := KR { o_q : config; o_dq : config; o_com : vec3; o_mom : nat -> R; o_pos : nat -> vec3; o_vel : nat -> R }.
(** What optimize reads: settings, dynamics_states[it] (com, lmom, amom, effActivation), the end-effector references of step it. *)
Record mkin := MK { mk_N : nat; mk_dt : R; mk_weight : R; mk_regori : R; mk_regjoint : R; mk_com : nat -> vec3; mk_lmom : nat -> vec3; mk_amom : nat -> vec3;
  mk_act : nat -> nat -> bool; mk_pos : nat -> list vec3; mk_vel : nat -> list vec3; mk_contact : nat -> list R }.

Section Mko.
  Variable sq : pm -> pv -> option (pm * pv) -> nat -> res pv.
  Variable rb : robot.
  Variable integ : config -> config -> config.     (* se3.integrate *)
  Variable olog : list R -> config -> vec3.            (* se3.log((quad_goal * quad_q.inverse()).matrix()), quad_goal from roll, pitch, yaw *)
  Notation nv := (r_nv rb). Notation ne := (r_ne rb).
  Definition listing (x : pv) : config := map (pe x) (seq 0 (pl x)).
  (** fill_kinematic_result, l.231-253; J is the array the inverse kinematics filled last. *)
  Definition result (s : ikst) (q dq : config) : kres :=
    KR q dq (r_com rb q) (fun i => rsum nv (fun j => r_Ag rb q i j * nth j dq 0)) (r_pos rb q) (fun i => rsum nv (fun j => k_J s (6 + i)%nat j * nth j dq 0)).

  (** optimize_initial_position, l.271-319 *)
  Definition start_q (com : vec3) (joints : config) : config := [0; 0; vz com; 0; 0; 0; 1] ++ joints.
  Definition norm_small (x : pv) : bool := if Rlt_dec (sqrt (rsum (pl x) (fun i => pe x i ^ 2))) (/ 1000) then true else false.
  Definition init_arg (com : vec3) (effpos : list vec3) (q dq : config) : ikarg :=
    IkA q dq com v0 (vscale (/ 10) (olog [0; 0; 0] q)) effpos (repeat v0 ne) (repeat 1 ne) None false.
  (** The loop l.300-313: [m] passes left, [k] done.  Result: state, configuration, value of iters + 1. *)
  Fixpoint init_loop (st : iksetting) (com : vec3) (effpos : list vec3) (dq : config) (m k : nat) (s : ikst) (q : config) : res (ikst * config * nat) :=
    match m with
    | O => Ok (s, q, k)
    | S m' => bind (compute sq rb st s (init_arg com effpos q dq)) (fun xs =>
        let q' := integ q (listing (fst xs)) in
        if norm_small (fst xs) then Ok (snd xs, q', S k) else init_loop st com effpos dq m' (S k) (snd xs) q')
    end.
  (** iters is not defined if there was no pass.  Result: state, q_init, dq_init, and whether "Failed to converge" is printed. *)
  Definition optimize_initial_position (st : iksetting) (max_iterations num_joints : nat) (joints : config) (com : vec3) (effpos : list vec3) (s : ikst) : res (ikst * config * config * bool) :=
    if (length joints =? num_joints)%nat then
      let dq := repeat 0 nv in
      bind (init_loop st com effpos dq max_iterations 0 s (start_q com joints)) (fun r =>
      let '(s', q, k) := r in if (k =? 0)%nat then Throw else Ok (s', q, dq, (k =? max_iterations)%nat))
    else Throw.

  (** optimize, l.367-417: the loop over the steps.  lmom_ref is always a view of a row of self.lmom_dyn: the row number. *)
  Variable g : mkin.
  Variables (joint_des base_des : list (list R)).
  Record mst := MS { m_ik : ikst; m_q : config; m_dq : config; m_lmom : list vec3; m_view : option nat; m_flight : option bool; m_mom : option (nat -> R); m_out : list kres }.
  (** l.383-389: the variable keeps its value if there is no end-effector. *)
  Definition flight_of (old : option bool) (it : nat) : option bool := if (ne =? 0)%nat then old else Some (forallb (fun e => negb (mk_act g it e)) (seq 0 ne)).
  (** l.390-397: lmom_dyn, view, amom_ref. *)
  Definition momentum_ref (m : mst) (it : nat) (fl : bool) (q : config) : res (list vec3 * nat * vec3) :=
    if fl then
      match m_mom m, m_view m with
      | Some f, Some v => bind (pyget (m_lmom m) v) (fun r =>
          Ok (set_nth (m_lmom m) v (V3 (f 0%nat) (f 1%nat) (vz r - mk_weight g * mk_dt g)), v, V3 (f 3%nat) (f 4%nat) (f 5%nat)))
      | _, _ => Throw
      end
    else bind (pyget base_des it) (fun b => Ok (m_lmom m, it, vadd (vscale (mk_regori g) (olog b q)) (mk_amom g it))).
  (** l.399: the joints of q and of the desired trajectory must have the same number (numpy's broadcasting of length 1 is not modelled). *)
  Definition joint_ref_of (q : config) (jd : list R) : res pv :=
    let c := skipn 7 q in if (length c =? length jd)%nat then Ok (PV (length c) (fun j => mk_regjoint g * (nth j jd 0 - nth j c 0))) else Throw.
  Definition no_init (st : iksetting) : iksetting := IkS (w_track st) (w_contact st) (w_lin st) (w_ang st) (w_joint st) (p_track st) (p_com st) false.
  Definition mko_step (st : iksetting) (m : mst) (it : nat) : res mst :=
    let q := m_q m in let dq := m_dq m in
    match flight_of (m_flight m) it with
    | None => Throw
    | Some fl =>
      bind (momentum_ref m it fl q) (fun r => let '(lm, v, am) := r in
      bind (pyget joint_des it) (fun jd => bind (joint_ref_of q jd) (fun jr =>
      let s1 := forward_robot (m_ik m) q dq in
      let out := m_out m ++ [result s1 q dq] in
      let mom := if fl then m_mom m else Some (fun i => rsum nv (fun j => k_J s1 i j * nth j dq 0)) in
      bind (pyget lm v) (fun lref =>
      bind (compute sq rb (no_init st) s1 (IkA q dq (mk_com g it) lref am (mk_pos g it) (mk_vel g it) (mk_contact g it) (Some jr) fl)) (fun xs =>
      Ok (MS (snd xs) (integ q (map (Rmult (mk_dt g)) (listing (fst xs)))) (listing (fst xs)) lm (Some v) (Some fl) mom out))))))
    end.
  Definition mko_start (s : ikst) (q dq : config) : mst := MS s q dq (map (mk_lmom g) (seq 0 (mk_N g))) None None None [].
  Definition optimize_motion (st : iksetting) (s : ikst) (q_init dq_init : config) : res mst := foldM (mko_step st) (seq 0 (mk_N g)) (mko_start s q_init dq_init).
End Mko.
