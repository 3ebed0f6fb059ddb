(** * Specification: what the momentum planner minimises
    In terms of the plan (DynSpec), independent of expressions and rows. *)
From Coq Require Import Reals List Arith ZArith Bool.
Import ListNotations.
From Verif Require Import Base Vec3 CntModel CntSpec DynModel DynSpec.
Local Open Scope R_scope.

(** Weighted squared length. *)
Definition wlen (w a : vec3) : R := vx w * sqr (vx a) + vy w * sqr (vy a) + vz w * sqr (vz a).
(** The step of a via point at time tau: whole part of tau/dt, at least the first and at most the last step. *)
Definition via_step (g : dset) (tau : R) : nat := Z.to_nat (Z.max 0 (Z.min (trunc (tau / g_dt g)) (Z.of_nat (g_N g) - 1))).
Definition sum_list {A} (f : A -> R) (l : list A) : R := fold_right Rplus 0 (map f l).
Definition via_cost (g : dset) (P : plan) : R := sum_list (fun v => wlen (w_via g) (vsub (p_com P (via_step g (fst v))) (snd v))) (g_via g).
(** Center of mass and momenta follow the references; the last step has weights of its own and a goal for the center of mass. *)
Definition state_cost (g : dset) (kin : list kinref) (goal wtrack : vec3) (P : plan) (t : nat) : R :=
  let r := nth t kin (Kin v0 v0 v0) in
  wlen wtrack (vsub (p_com P t) (k_com r)) +
  if (S t =? g_N g)%nat
  then wlen (w_com g) (vsub (p_com P t) goal) + wlen (w_flmom g) (vsub (p_lmom P t) (k_lmom r)) + wlen (w_famom g) (vsub (p_amom P t) (k_amom r))
  else wlen (w_lmom g) (vsub (p_lmom P t) (k_lmom r)) + wlen (w_amom g) (vsub (p_amom P t) (k_amom r)).
(** Rates of the momenta: variables in the time optimisation, else difference quotients. *)
Definition rate_cost (g : dset) (ini : dstate) (q : dseq) (P : plan) (t : nat) : R :=
  match g_heur g with
  | TimeOptimization => wlen (w_lmomd g) (p_lmomd P t) + wlen (w_amomd g) (p_amomd P t)
  | _ => wlen (w_lmomd g) (vscale (1 / step_time q t) (vsub (p_lmom P t) (prev (p_lmom P) (d_lmom ini) t)))
         + wlen (w_amomd g) (vscale (1 / step_time q t) (vsub (p_amom P t) (prev (p_amom P) (d_amom ini) t)))
  end.
(** Force of an end-effector: zero when it is not in contact. *)
Definition force_at (q : dseq) (P : plan) (e t : nat) : vec3 := if e_act (look q e t) then p_frc P e t else v0.
(** Forces, their changes from the previous and to the next step, normal torques. *)
Definition contact_cost (g : dset) (ini : dstate) (q : dseq) (P : plan) (e t : nat) : R :=
  let wf := if (e <=? 1)%nat then w_leg g else w_arm g in
  let wr := if ((e =? 2) || (e =? 3))%nat then w_armrate g else w_legrate g in
  let wt := if (e <=? 1)%nat then w_legtrq g else w_armtrq g in
  let f := p_frc P e t in
  let after := if (S t =? g_N g)%nat then f else force_at q P e (S t) in
  let before := match t with O => e_frc (d_eff ini e) | S s => force_at q P e s end in
  wlen wf f + wlen wr (vsub after f) + wlen wr (vsub f before) + wt * sqr (p_trq P e t).
(** Durations, in the time optimisation. *)
Definition time_cost (g : dset) (P : plan) (t : nat) : R :=
  match g_heur g with TimeOptimization => w_time g * sqr (p_dt P t) + w_timereg g * sqr (p_dt P t - g_dt g) | _ => 0 end.
(** First-order model at (l0,f0) of the quadratic forms upper and lower: Q(z) - Q(z - z0). *)
Definition tangent (Q : vec3 -> vec3 -> vec3) (l0 f0 l f : vec3) : vec3 := vsub (Q l f) (Q (vsub l l0) (vsub f f0)).
(** Lever arm and force stored in the sequence. *)
Definition stored_arm (cs : nat -> list contact) (q : dseq) (e t : nat) : vec3 :=
  let c := contact_on cs q e t in let s := nth t (states q) dstate_new in
  vsub (vadd (c_pos c) (vadd (vscale (vx (e_cop (d_eff s e))) (surf c 0)) (vscale (vy (e_cop (d_eff s e))) (surf c 1)))) (d_com s).
Definition stored_force (q : dseq) (e t : nat) : vec3 := e_frc (look q e t).
(** Later passes of the time optimisation: distance of the bounds from the models at the stored plan. *)
Definition gap_cost (g : dset) (cs : nat -> list contact) (q : dseq) (P : plan) (e t : nat) : R :=
  let m Q := tangent Q (stored_arm cs q e t) (stored_force q e t) (arm cs q P e t) (p_frc P e t) in
  let du := vsub (m upper) (p_ub P e t) in let dl := vsub (m lower) (p_lb P e t) in
  g_wsoft g * (vdot du du + vdot dl dl).
Definition gaps (g : dset) (first : bool) : bool := match g_heur g with TimeOptimization => negb first | _ => false end.
Definition eff_sum (q : dseq) (n t : nat) (f : nat -> R) : R := rsum n (fun e => if e_act (look q e t) then f e else 0).
(** The objective. *)
Definition momentum_cost (g : dset) (ini : dstate) (cs : nat -> list contact) (q : dseq) (kin : list kinref) (goal wtrack : vec3) (first : bool) (P : plan) : R :=
  via_cost g P + rsum (g_N g) (fun t =>
    state_cost g kin goal wtrack P t + rate_cost g ini q P t + time_cost g P t +
    eff_sum q (g_neff g) t (fun e => contact_cost g ini q P e t + if gaps g first then gap_cost g cs q P e t else 0)).

(** Plans with the same values wherever the problem has variables. *)
Definition same_plan (g : dset) (q : dseq) (P P' : plan) : Prop :=
  (forall t, (t < g_N g)%nat -> p_com P t = p_com P' t /\ p_lmom P t = p_lmom P' t /\ p_amom P t = p_amom P' t) /\
  (g_heur g = TimeOptimization -> forall t, (t < g_N g)%nat -> p_dt P t = p_dt P' t /\ p_lmomd P t = p_lmomd P' t /\ p_amomd P t = p_amomd P' t) /\
  (forall e t, (e < g_neff g)%nat -> (t < g_N g)%nat -> active q e t ->
     p_lb P e t = p_lb P' e t /\ p_ub P e t = p_ub P' e t /\ p_frc P e t = p_frc P' e t /\ p_copx P e t = p_copx P' e t /\ p_copy P e t = p_copy P' e t /\ p_trq P e t = p_trq P' e t).
(** Every step in contact has variables of its own. *)
Definition numbered (g : dset) (q : dseq) : Prop :=
  forall e t t', (e < g_neff g)%nat -> (t < g_N g)%nat -> (t' < g_N g)%nat -> active q e t -> active q e t' -> e_aid (look q e t) = e_aid (look q e t') -> t = t'.

(** Distance of the bounds from the quadratic forms they bound: what the heuristics try to close. *)
Definition slack_sq (cs : nat -> list contact) (q : dseq) (P : plan) (e t : nat) : R :=
  let du := vsub (p_ub P e t) (upper (arm cs q P e t) (p_frc P e t)) in let dl := vsub (p_lb P e t) (lower (arm cs q P e t) (p_frc P e t)) in vdot du du + vdot dl dl.
(** Objective of the soft-constraint heuristic: the squared slacks are penalised. *)
Definition relaxed_cost (g : dset) (ini : dstate) (cs : nat -> list contact) (q : dseq) (kin : list kinref) (goal wtrack : vec3) (first : bool) (w : R) (P : plan) : R :=
  momentum_cost g ini cs q kin goal wtrack first P + w * rsum (g_N g) (fun t => eff_sum q (g_neff g) t (fun e => slack_sq cs q P e t)).
(** Number of end-effectors in contact. *)
Definition contacts_at (g : dset) (q : dseq) (t : nat) : R := eff_sum q (g_neff g) t (fun _ => 1).
(** Sum of the true torques of all contacts at step t. *)
Definition true_torque (g : dset) (cs : nat -> list contact) (q : dseq) (P : plan) (t : nat) : vec3 := active_sum q (g_neff g) t (fun e => contact_torque g cs q P e t).
(** P is feasible and costs no more than any feasible plan. *)
Definition cheapest (g : dset) (ini : dstate) (cs : nat -> list contact) (q : dseq) (kin : list kinref) (goal wtrack : vec3) (first : bool) (P : plan) : Prop :=
  momentum_feasible g ini cs q first P /\
  forall P', momentum_feasible g ini cs q first P' -> momentum_cost g ini cs q kin goal wtrack first P <= momentum_cost g ini cs q kin goal wtrack first P'.
