(** * Model of the wrapper around the simulator and of the bookkeeping of the execution loop
    Sources: momentumopt/python/momentumopt/robots/simulator.py, momentumopt/python/momentumopt/motion_execution.py l.263-271, 290-345, 400-512,
    momentumopt/python/momentumopt/robots/blmc_robot_wrapper.py l.26-28, 169.
    Reals are exact.  pybullet is a record of what its calls read and write (base pose and velocity, joints by index, contact points); stepping the
    physics is an arbitrary change of it.  [Throw] is a Python exception (KeyError, IndexError, AssertionError).
    Simplification: the torques of setJointMotorControlArray are assigned in order of the arrays. Not modelled: plots, printing, gains. *)
From Coq Require Import Reals String List Arith ZArith Bool.
Import ListNotations.
From Verif Require Import Base Vec3.
Local Open Scope R_scope.

(** ** pybullet *)
Record bullet := Bullet {
  bu_pos : vec3; bu_orn : quat; bu_lin : vec3; bu_ang : vec3;      (* base pose; velocities in world axes *)
  bu_joint : nat -> R * R; bu_torque : nat -> R }.
(** getMatrixFromQuaternion: btMatrix3x3::setRotation, which divides by the squared length. *)
Definition bu_matrix (q : quat) : vec3 * vec3 * vec3 :=
  let s := 2 / (qx q * qx q + qy q * qy q + qz q * qz q + qw q * qw q) in
  let xs := qx q * s in let ys := qy q * s in let zs := qz q * s in
  let wx := qw q * xs in let wy := qw q * ys in let wz := qw q * zs in
  let xx := qx q * xs in let xy := qx q * ys in let xz := qx q * zs in
  let yy := qy q * ys in let yz := qy q * zs in let zz := qz q * zs in
  (V3 (1 - (yy + zz)) (xy - wz) (xz + wy), V3 (xy + wz) (1 - (xx + zz)) (yz - wx), V3 (xz - wy) (yz + wx) (1 - (xx + yy))).
Definition mul3 (m : vec3 * vec3 * vec3) (v : vec3) : vec3 := let '(a, b, c) := m in V3 (vdot a v) (vdot b v) (vdot c v).
Definition mulT3 (m : vec3 * vec3 * vec3) (v : vec3) : vec3 :=
  let '(a, b, c) := m in V3 (vx a * vx v + vx b * vy v + vx c * vz v) (vy a * vx v + vy b * vy v + vy c * vz v) (vz a * vx v + vz b * vy v + vz c * vz v).

(** ** Simulator.__init__, simulator.py l.19-51 *)
Record sim := Sim { si_nq : nat; si_nv : nat; si_nj : nat; si_bul : list nat; si_pin : list nat; si_p2b : list nat; si_bef : list nat; si_pef : list nat }.
(** [bullet_joint_map[name] for name in l]: KeyError *)
Fixpoint lookup_all (m : string -> option nat) (l : list string) : res (list nat) :=
  match l with [] => Ok [] | n :: r => match m n with None => Throw | Some i => bind (lookup_all m r) (fun is => Ok (i :: is)) end end.
(** np.where(ids == i)[0][0]: the first position, IndexError if there is none *)
Fixpoint where_first (ids : list nat) (i : nat) : option nat :=
  match ids with [] => None | k :: r => if Nat.eqb k i then Some 0%nat else match where_first r i with Some p => Some (S p) | None => None end end.
Fixpoint where_all (ids : list nat) (is : list nat) : res (list nat) :=
  match is with [] => Ok [] | i :: r => match where_first ids i with None => Throw | Some p => bind (where_all ids r) (fun ps => Ok (p :: ps)) end end.
Definition sim_new (bmap : string -> option nat) (pinid frameid : string -> nat) (nq nv : nat) (joints effs : list string) : res sim :=
  bind (lookup_all bmap joints) (fun bul =>
  let pin := map pinid joints in
  bind (where_all pin (seq 2 (length joints))) (fun p2b =>
  bind (lookup_all bmap effs) (fun bef => Ok (Sim nq nv (length joints) bul pin p2b bef (map frameid effs))))).

(** ** get_state l.100-124, reset_state l.126-138, send_joint_command l.140-148 *)
(** v[i] = x of a numpy column: IndexError out of range. *)
Definition lset (v : list R) (i : nat) (x : R) : res (list R) := if (i <? length v)%nat then Ok (set_nth v i x) else Throw.
(** the loop over i in range(nj): v[off + pin[i]] = f(bul[i]) *)
Fixpoint scatter (off : nat) (f : nat -> R) (pin bul : list nat) (v : list R) : res (list R) :=
  match pin, bul with p :: pin', b :: bul' => bind (lset v (off + p) (f b)) (fun v' => scatter off f pin' bul' v') | _, _ => Ok v end.
Definition get_state (s : sim) (b : bullet) : res (list R * list R) :=
  let m := bu_matrix (bu_orn b) in
  let lin := mulT3 m (bu_lin b) in let ang := mulT3 m (bu_ang b) in
  let o := bu_orn b in
  let q0 := [vx (bu_pos b); vy (bu_pos b); vz (bu_pos b); qx o; qy o; qz o; qw o] ++ repeat 0 (si_nq s - 7) in
  let d0 := [vx lin; vy lin; vz lin; vx ang; vy ang; vz ang] ++ repeat 0 (si_nv s - 6) in
  bind (scatter 5 (fun j => fst (bu_joint b j)) (si_pin s) (si_bul s) q0) (fun q =>
  bind (scatter 4 (fun j => snd (bu_joint b j)) (si_pin s) (si_bul s) d0) (fun d => Ok (q, d))).
Definition upd_fun {A} (f : nat -> A) (i : nat) (x : A) : nat -> A := fun k => if Nat.eqb k i then x else f k.
Definition rd (v : list R) (i : nat) : R := nth i v 0.
Fixpoint put_joints (q dq : list R) (pin bul : list nat) (f : nat -> R * R) : nat -> R * R :=
  match pin, bul with p :: pin', b :: bul' => put_joints q dq pin' bul' (upd_fun f b (rd q (5 + p), rd dq (4 + p))) | _, _ => f end.
Definition reset_state (s : sim) (q dq : list R) (b : bullet) : bullet :=
  let o := Q4 (rd q 6) (rd q 3) (rd q 4) (rd q 5) in let m := bu_matrix o in
  Bullet (V3 (rd q 0) (rd q 1) (rd q 2)) o (mul3 m (V3 (rd dq 0) (rd dq 1) (rd dq 2))) (mul3 m (V3 (rd dq 3) (rd dq 4) (rd dq 5)))
         (put_joints q dq (si_pin s) (si_bul s) (bu_joint b)) (bu_torque b).
(** forces = tau[pin2bullet_joint_only_array], joint by joint in the order of bullet_joint_ids *)
Fixpoint put_torques (bul : list nat) (forces : list R) (f : nat -> R) : nat -> R :=
  match bul, forces with b :: bul', x :: fs => put_torques bul' fs (upd_fun f b x) | _, _ => f end.
Definition send_joint_command (s : sim) (tau : list R) (b : bullet) : res bullet :=
  if Nat.eqb (length tau) (si_nv s - 6) then
    Ok (Bullet (bu_pos b) (bu_orn b) (bu_lin b) (bu_ang b) (bu_joint b) (put_torques (si_bul s) (map (fun p => rd tau p) (si_p2b s)) (bu_torque b)))
  else Throw.

(** ** get_force l.60-98: contact points reported by getContactPoints() (of all bodies) *)
Record contact := Contact { co_body : nat; co_link : nat; co_normal : vec3; co_nf : R; co_d1 : vec3; co_f1 : R; co_d2 : vec3; co_f2 : R }.
Fixpoint get_force (s : sim) (cp : list contact) : list (nat * vec3) :=
  match cp with
  | [] => []
  | c :: r =>
      match where_first (si_bef s) (co_link c) with
      | Some i => (nth i (si_pef s) 0%nat, vadd (vadd (vscale (co_nf c) (co_normal c)) (vscale (co_f1 c) (co_d1 c))) (vscale (co_f2 c) (co_d2 c))) :: get_force s r
      | None => get_force s r
      end
  end.

(** ** The execution loop, motion_execution.py l.424-512: the configuration the robot wrapper holds (self.robot.q) when the Jacobians are evaluated.
    [qs]: the simulated configurations of the passes; with dynamics feedback calculate_momentum (l.324-329) sets the configuration, after the Jacobians
    were evaluated (l.452).  The result lists the configuration of the Jacobians of every pass and the one the wrapper is left with. *)
Fixpoint jac_configs {Q : Type} (feedback : bool) (wq : Q) (qs : list Q) : list Q * Q :=
  match qs with
  | [] => ([], wq)
  | q :: r => let '(l, e) := jac_configs feedback (if feedback then q else wq) r in (wq :: l, e)
  end.
(** l.515 calculate_actual_trajectories sets the configuration of every recorded pass in turn (l.304); with tune_online the loop is run again (l.412). *)
Definition after_run {Q : Type} (feedback : bool) (wq : Q) (qs : list Q) : Q := last qs (snd (jac_configs feedback wq qs)).
Fixpoint jac_runs {Q : Type} (feedback : bool) (wq : Q) (runs : list (list Q)) : list (list Q) :=
  match runs with [] => [] | qs :: r => fst (jac_configs feedback wq qs) :: jac_runs feedback (after_run feedback wq qs) r end.

(** ** Swing times, l.419-421, 493-508: per foot name a list of intervals [start] or [start, end] *)
Definition swing_rec (low : bool) (t : R) (l : list (list R)) : list (list R) :=
  if low then
    match l with
    | [] => [[t]]
    | _ => if Nat.eqb (length (last l [])) 2 then l ++ [[t]] else l
    end
  else
    match l with
    | [] => l
    | _ => if Nat.eqb (length (last l [])) 1 then removelast l ++ [last l [] ++ [t]] else l
    end.
Definition abs_sum (f : vec3) : R := Rabs (vx f) + Rabs (vy f) + Rabs (vz f).
(** swing_times as a function of the index in self.robot.effs; an entry of get_force is (frame id, force). *)
Definition swing_contact (s : sim) (t : R) (e : nat * vec3) (sw : nat -> list (list R)) : nat -> list (list R) :=
  match where_first (si_pef s) (fst e) with
  | None => sw   (* IndexError; frames of get_force are always listed *)
  | Some i => upd_fun sw i (swing_rec (if Rlt_dec (abs_sum (snd e)) (/ 1000) then true else false) t (sw i))
  end.
Definition swing_pass (s : sim) (t : R) (cp : list contact) (sw : nat -> list (list R)) : nat -> list (list R) :=
  fold_left (fun sw e => swing_contact s t e sw) (get_force s cp) sw.
Fixpoint swing_run (s : sim) (k : nat) (cps : list (list contact)) (sw : nat -> list (list R)) : nat -> list (list R) :=
  match cps with [] => sw | cp :: r => swing_run s (S k) r (swing_pass s (INR k / 1000) cp sw) end.
(** The names: simulator (l.265-271) and robot wrapper (blmc_robot_wrapper.py l.170: QuadrupedWrapper.effs). *)
Definition controlled_joints : list string := ["HL_HFE"; "HL_KFE"; "HR_HFE"; "HR_KFE"; "FL_HFE"; "FL_KFE"; "FR_HFE"; "FR_KFE"]%string.
Definition sim_feet : list string := ["HL"; "HR"; "FL"; "FR"]%string.
Definition robot_feet : list string := ["FR"; "FL"; "HR"; "HL"]%string.
