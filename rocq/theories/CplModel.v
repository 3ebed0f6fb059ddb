(** * Model of the end-effector reference generator
    Source: momentumopt/python/momentumopt/kinoptpy/momentum_kinematics_optimizer.py, class EndeffectorTrajectoryGenerator, l.29-123.
    Time is the index of the step, as in the source.  An IndexError or the exception of a failed fit is [Throw].  [solve] is numpy.linalg.solve (PolyModel). *)
From Coq Require Import Reals List Arith ZArith Bool.
Import ListNotations.
From Verif Require Import Base Vec3 CntModel PolyModel.
Local Open Scope R_scope.

(** One entry [start_time, end_time, position]. *)
Record phase := Ph { ph_start : nat; ph_end : nat; ph_pos : vec3 }.
(** l.50-62: the loop for one end-effector; [a it] its activation, [pos it] its position at step it.  State: start_time, count, list. *)
Definition plan_step (a : nat -> bool) (pos : nat -> vec3) (s : nat * nat * list phase) (it : nat) : nat * nat * list phase :=
  let '(start, count, l) := s in
  if negb (Bool.eqb (a it) (a (it + 1)%nat)) then
    let '(start', l') := if (count mod 2 =? 0)%nat then ((it + 1)%nat, l) else (start, l ++ [Ph start it (pos it)]) in
    (start', (count + 1)%nat, l')
  else s.
Definition contact_plan (N : nat) (a : nat -> bool) (pos : nat -> vec3) : list phase :=
  snd (fold_left (plan_step a pos) (seq 0 (N - 1)) (0%nat, 1%nat, [])).
(** l.46-63 with the accesses dynamics_states[it], dynamics_states[it+1]. *)
Definition get_contact_plan (N : nat) (q : dseq) (e : nat) : res (list phase) :=
  if ((1 <? N)%nat && (List.length (states q) <? N)%nat)%bool then Throw
  else Ok (contact_plan N (fun t => e_act (d_eff (nth t (states q) dstate_new) e)) (fun t => e_pos (d_eff (nth t (states q) dstate_new) e))).

(** l.66-91: the list of polynomials of axis idx. *)
Section Traj.
  Variable solve : list (list R) -> list R -> option (list R).
  Variable z_offset : R.
  Definition via_of (idx : nat) (c : phase) : option R := if (idx =? 2)%nat then Some (z_offset + vget3 (ph_pos c) idx) else None.
  Fixpoint gen_traj (idx : nat) (plan : list phase) : res plist :=
    match plan with
    | [] => Ok []
    | c :: r =>
        let here := ((INR (ph_start c), INR (ph_end c)), constant_poly (vget3 (ph_pos c) idx)) in
        match r with
        | [] => Ok [here]
        | c' :: _ =>
            bind (poly_points solve (INR (ph_end c)) (INR (ph_start c')) (vget3 (ph_pos c) idx) (vget3 (ph_pos c') idx) (via_of idx c)) (fun p =>
            bind (gen_traj idx r) (fun l => Ok (here :: ((INR (ph_end c), INR (ph_start c')), p) :: l)))
        end
    end.
  (** l.107-121: position and velocity reference of end-effector e at step it, axis idx. *)
  Definition ref_pos (N : nat) (q : dseq) (e it idx : nat) : res R := bind (get_contact_plan N q e) (fun plan => bind (gen_traj idx plan) (fun l => list_eval l (INR it))).
  Definition ref_vel (N : nat) (dt : R) (q : dseq) (e it idx : nat) : res R := bind (get_contact_plan N q e) (fun plan => bind (gen_traj idx plan) (fun l => bind (list_deval l (INR it)) (fun v => Ok (v / dt)))).
  (** l.38-43, 121 *)
  Definition ref_contact (q : dseq) (e it : nat) : res R := if (it <? List.length (states q))%nat then Ok (if e_act (d_eff (nth it (states q) dstate_new) e) then 1 else 0) else Throw.
End Traj.
