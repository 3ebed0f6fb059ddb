(** * Specification: the momentum planning problem in terms of mechanics
    Independent of expressions, rows and loops.  A plan gives for every step the center of mass, the momenta, and for every
    end-effector in contact its force (in units of the robot's weight), center of pressure and torque. *)
From Coq Require Import Reals List Arith ZArith Bool.
Import ListNotations.
From Verif Require Import Base Vec3 ConicModel OptVarModel OptVarSpec CntModel CntSpec DynModel.
Local Open Scope R_scope.

Record plan := Plan {
  p_com : nat -> vec3; p_lmom : nat -> vec3; p_amom : nat -> vec3;          (* by step *)
  p_dt : nat -> R; p_lmomd : nat -> vec3; p_amomd : nat -> vec3;            (* time optimisation only *)
  p_lb : nat -> nat -> vec3; p_ub : nat -> nat -> vec3;                     (* by end-effector and step *)
  p_frc : nat -> nat -> vec3; p_copx : nat -> nat -> R; p_copy : nat -> nat -> R; p_trq : nat -> nat -> R }.

(** Entry (r,c) of the variable block number k in the solver's vector x (see C08). *)
Definition planned (bs : list blockspec) (x : nat -> R) (k r c : nat) : R := x (column_of bs (seq 0 (length bs)) k r c).
(** The plan contained in x: com, linear and angular momentum, (dt and rates), then five blocks per end-effector whose
    columns are the numbered steps in contact. *)
Definition plan_of (g : dset) (q : dseq) (x : nat -> R) : plan :=
  let bs := dblocks g q in
  let s := planned bs x in
  let v k c := V3 (s k 0%nat c) (s k 1%nat c) (s k 2%nat c) in
  let n e t := Z.to_nat (e_aid (look q e t)) in
  let b e k := ((match g_heur g with TimeOptimization => 6 | _ => 3 end) + 5 * e + k)%nat in
  Plan (v 0%nat) (v 1%nat) (v 2%nat) (s 3%nat 0%nat) (v 4%nat) (v 5%nat)
       (fun e t => v (b e 0%nat) (n e t)) (fun e t => v (b e 1%nat) (n e t)) (fun e t => v (b e 2%nat) (n e t))
       (fun e t => s (b e 3%nat) 0%nat (n e t)) (fun e t => s (b e 3%nat) 1%nat (n e t)) (fun e t => s (b e 4%nat) 0%nat (n e t)).

Definition active (q : dseq) (e t : nat) : Prop := e_act (look q e t) = true.
(** The contact of end-effector e at step t. *)
Definition contact_on (cs : nat -> list contact) (q : dseq) (e t : nat) : contact :=
  nth (Z.to_nat (e_cid (look q e t))) (cs e) (Cnt 0 0 v0 qone FreeContact false 0 0).
(** Sum over the end-effectors in contact at step t. *)
Fixpoint active_sum (q : dseq) (n t : nat) (f : nat -> vec3) : vec3 :=
  match n with O => v0 | S m => vadd (active_sum q m t f) (if e_act (look q m t) then f m else v0) end.
(** The value at the step before t, the initial one for t = 0. *)
Definition prev (a : nat -> vec3) (a0 : vec3) (t : nat) : vec3 := match t with O => a0 | S t' => a t' end.
Definition step_time (q : dseq) (t : nat) : R := d_time (nth t (states q) dstate_new).
(** Unit vectors of the contact surface: tangential 0, 1 and normal 2. *)
Definition surf (c : contact) (j : nat) : vec3 := rotcol (c_ori c) j.
(** From the center of mass to the center of pressure. *)
Definition arm (cs : nat -> list contact) (q : dseq) (P : plan) (e t : nat) : vec3 :=
  let c := contact_on cs q e t in
  vsub (vadd (c_pos c) (vadd (vscale (p_copx P e t) (surf c 0)) (vscale (p_copy P e t) (surf c 1)))) (p_com P t).

(** The two convex functions whose difference is four times arm x force. *)
Definition sqr (a : R) : R := a * a.
Definition upper (l f : vec3) : vec3 :=
  V3 (sqr (vy f - vz l) + sqr (vy l + vz f)) (sqr (vz l + vx f) + sqr (vz f - vx l)) (sqr (vx f - vy l) + sqr (vx l + vy f)).
Definition lower (l f : vec3) : vec3 :=
  V3 (sqr (vy f + vz l) + sqr (vy l - vz f)) (sqr (vz l - vx f) + sqr (vz f + vx l)) (sqr (vx f + vy l) + sqr (vx l - vy f)).
Definition vle (a b : vec3) : Prop := vx a <= vx b /\ vy a <= vy b /\ vz a <= vz b.

(** Coulomb friction at a contact with surface axes of c. *)
Definition coulomb (mu : R) (c : contact) (f : vec3) : Prop :=
  sqrt (sqr (vdot (surf c 0) f) + sqr (vdot (surf c 1) f)) <= mu * vdot (surf c 2) f.
(** Its polyhedral replacement. *)
Definition pyramid (mu : R) (c : contact) (f : vec3) : Prop :=
  Rabs (vdot (surf c 0) f) + Rabs (vdot (surf c 1) f) <= sqrt 2 * mu * vdot (surf c 2) f.

(** Torque about the center of mass that the problem uses: through ub and lb. *)
Definition torque_used (g : dset) (cs : nat -> list contact) (q : dseq) (P : plan) (e t : nat) : vec3 :=
  vadd (vscale (g_mg g / 4) (vsub (p_ub P e t) (p_lb P e t))) (vscale (p_trq P e t) (surf (contact_on cs q e t) 2)).
(** Weight plus contact forces. *)
Definition net_force (g : dset) (q : dseq) (P : plan) (t : nat) : vec3 :=
  vadd (vscale (g_mass g) (g_grav g)) (active_sum q (g_neff g) t (fun e => vscale (g_mg g) (p_frc P e t))).
Definition net_torque (g : dset) (cs : nat -> list contact) (q : dseq) (P : plan) (t : nat) : vec3 :=
  active_sum q (g_neff g) t (fun e => torque_used g cs q P e t).

(** Discretised Newton-Euler equations with given step durations; the external force acts in the first step. *)
Definition dynamics_fixed (g : dset) (ini : dstate) (cs : nat -> list contact) (q : dseq) (P : plan) (t : nat) : Prop :=
  let dt := step_time q t in
  p_com P t = vadd (prev (p_com P) (d_com ini) t) (vscale (dt / g_mass g) (p_lmom P t)) /\
  p_lmom P t = vadd (prev (p_lmom P) (d_lmom ini) t) (vscale dt (vadd (net_force g q P t) (if (t =? 0)%nat then vscale (g_mg g) (g_ext g) else v0))) /\
  p_amom P t = vadd (prev (p_amom P) (d_amom ini) t) (vscale dt (net_torque g cs q P t)).
(** First-order model of the product d * a at (d0, a0). *)
Definition product_model (d0 : R) (a0 : vec3) (d : R) (a : vec3) : vec3 := vsub (vadd (vscale d0 a) (vscale d a0)) (vscale d0 a0).
(** Time optimisation: rates are explicit; the first pass uses the given durations, later passes the linearised product
    at the values stored in the sequence. *)
Definition dynamics_time (g : dset) (ini : dstate) (cs : nat -> list contact) (q : dseq) (first : bool) (P : plan) (t : nat) : Prop :=
  let s := nth t (states q) dstate_new in
  let inc a0 a := if first then vscale (d_time s) a else product_model (d_time s) a0 (p_dt P t) a in
  p_com P t = vadd (prev (p_com P) (d_com ini) t) (vscale (/ g_mass g) (inc (d_lmom s) (p_lmom P t))) /\
  p_lmom P t = vadd (prev (p_lmom P) (d_lmom ini) t) (inc (d_lmomd s) (p_lmomd P t)) /\
  p_amom P t = vadd (prev (p_amom P) (d_amom ini) t) (inc (d_amomd s) (p_amomd P t)) /\
  p_lmomd P t = net_force g q P t /\ p_amomd P t = net_torque g cs q P t.

(** Constraints on one end-effector in contact. *)
Record contact_feasible (g : dset) (cs : nat -> list contact) (q : dseq) (P : plan) (e t : nat) : Prop := {
  cf_trq : g_trqlo g <= p_trq P e t <= g_trqhi g;
  cf_copx : g_coprange g e 0 <= p_copx P e t <= g_coprange g e 1;
  cf_copy : g_coprange g e 2 <= p_copy P e t <= g_coprange g e 3;
  cf_friction : c_type (contact_on cs q e t) <> FullContact ->
    if g_linfric g then pyramid (Rmax (g_mu g) (1 / 1000)) (contact_on cs q e t) (p_frc P e t) else coulomb (g_mu g) (contact_on cs q e t) (p_frc P e t);
  cf_upper : vle (upper (arm cs q P e t) (p_frc P e t)) (p_ub P e t);
  cf_lower : vle (lower (arm cs q P e t) (p_frc P e t)) (p_lb P e t);
  cf_reach : let d := vsub (arm cs q P e t) (g_off g e) in vdot d d <= sqr (g_maxlen g e) }.
Record momentum_feasible (g : dset) (ini : dstate) (cs : nat -> list contact) (q : dseq) (first : bool) (P : plan) : Prop := {
  mf_height : forall t, (t < g_N g)%nat -> vz (p_com P t) >= vz (c_pos (contact_on cs q 0 0)) + g_minh g;
  mf_dynamics : forall t, (t < g_N g)%nat ->
    match g_heur g with TimeOptimization => dynamics_time g ini cs q first P t | _ => dynamics_fixed g ini cs q P t end;
  mf_time : g_heur g = TimeOptimization -> (forall t, (t < g_N g)%nat -> g_tlo g <= p_dt P t <= g_thi g) /\
    (g_fixed g = true -> rsum (g_N g) (p_dt P) = INR (g_N g) * g_dt g);
  mf_contact : forall e t, (e < g_neff g)%nat -> (t < g_N g)%nat -> active q e t -> contact_feasible g cs q P e t }.

(** The sequence has all steps, contacts refer to existing contacts and numbered variables, the first end-effector has a contact
    at the first step, and reading the contact type of an inactive end-effector (number -1) does not crash. *)
Definition ready (g : dset) (q : dseq) (cs : nat -> list contact) (stray : nat -> nat -> option ctype) : Prop :=
  (g_N g <= length (states q))%nat /\
  (forall e t, (e < g_neff g)%nat -> (t < g_N g)%nat -> active q e t ->
     (0 <= e_aid (look q e t) < act_steps q e)%Z /\ (0 <= e_cid (look q e t) < Z.of_nat (length (cs e)))%Z) /\
  ((0 < g_N g)%nat -> (0 <= e_cid (look q 0 0) < Z.of_nat (length (cs 0%nat)))%Z) /\
  (forall e t, ~ active q e t -> stray t e <> None).
Definition nonneg3 (w : vec3) : Prop := 0 <= vx w /\ 0 <= vy w /\ 0 <= vz w.
(** All weights of the objective are nonnegative. *)
Definition weights_ok (g : dset) (wtrack : vec3) : Prop :=
  nonneg3 wtrack /\ nonneg3 (w_via g) /\ nonneg3 (w_com g) /\ nonneg3 (w_flmom g) /\ nonneg3 (w_famom g) /\ nonneg3 (w_lmom g) /\ nonneg3 (w_amom g) /\
  nonneg3 (w_lmomd g) /\ nonneg3 (w_amomd g) /\ nonneg3 (w_leg g) /\ nonneg3 (w_arm g) /\ nonneg3 (w_legrate g) /\ nonneg3 (w_armrate g) /\
  0 <= w_legtrq g /\ 0 <= w_armtrq g /\ 0 <= w_time g /\ 0 <= w_timereg g /\ 0 <= g_wsoft g.

(** a0 plus the first n increments. *)
Fixpoint accum (a0 : vec3) (f : nat -> vec3) (n : nat) : vec3 := match n with O => a0 | S m => vadd (accum a0 f m) (f m) end.
(** True torque of a contact about the planned center of mass: arm x force plus the torque about the surface normal. *)
Definition contact_torque (g : dset) (cs : nat -> list contact) (q : dseq) (P : plan) (e t : nat) : vec3 :=
  vadd (vcross (arm cs q P e t) (vscale (g_mg g) (p_frc P e t))) (vscale (p_trq P e t) (surf (contact_on cs q e t) 2)).
Definition unit_quat (q : quat) : Prop := qw q * qw q + qx q * qx q + qy q * qy q + qz q * qz q = 1.
