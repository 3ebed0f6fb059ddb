(** * Model of the momentum feedback problem
    Source: momentumopt/src/momentumopt/dynopt/DynamicsFeedback.cpp.
    The state vector is (center of mass, linear momentum, angular momentum), the control the forces of the end-effectors; vectors as in LqrModel.
    Accesses outside the dynamics sequence are [UB].  Not modelled: configure (YAML), the pointers to settings and sequence. *)
From Coq Require Import Reals List Arith ZArith Bool.
Import ListNotations.
From Verif Require Import Base Vec3 CntModel DynModel LqrModel.
Local Open Scope R_scope.

(** v.segment<3>(k) and the 9-vector with the segments a, b, c at 0, 3, 6. *)
Definition seg3 (v : vec) (k : nat) : vec3 := V3 (v k) (v (k + 1)%nat) (v (k + 2)%nat).
Definition vec9 (a b c : vec3) : vec := fun i =>
  if (i <? 3)%nat then vget3 a i else if (i <? 6)%nat then vget3 b (i - 3) else if (i <? 9)%nat then vget3 c (i - 6) else 0.

Section Feedback.
  Variables (g : dset) (q : dseq).
  Definition fact (t e : nat) : bool := e_act (d_eff (nth t (states q) dstate_new) e).

  (** l.17-37: returns the states (state 0 is written before the sizes are compared) and the controls.  [sets 3 blocks]: segment<3>(3*eff) of the zero vector. *)
  Definition feedforward_of (t : nat) : vec := fun i =>
    let e := (i / 3)%nat in
    if ((e <? g_neff g)%nat && fact t e)%bool then vget3 (vscale (g_mg g) (e_frc (d_eff (nth t (states q) dstate_new) e))) (i mod 3) else 0.
  Definition setStatesAndControls (tdim : nat) (ini : dstate) (xs : sseq) (us : cseq) : sseq * res cseq :=
    (upd xs 0 (fun i => if (i <? 9)%nat then vec9 (d_com ini) (d_lmom ini) (d_amom ini) i else xs 0%nat i),
     if (tdim =? List.length (states q))%nat
     then Ok (fun t => if (t <? List.length (states q))%nat then mkCtrl (feedforward_of t) (fb (us t)) else us t)
     else Throw).

  (** l.88-114 *)
  Definition fsum (t : nat) (f : nat -> vec3) (start : vec3) : vec3 :=
    fold_left (fun acc e => if fact t e then vadd acc (f e) else acc) (seq 0 (g_neff g)) start.
  Definition fb_dynamics (x : vec) (u : ctrl) (t : nat) : vec :=
    let dt := d_time (nth t (states q) dstate_new) in
    let dl := fsum t (fun e => vscale dt (seg3 (ff u) (3 * e))) (vscale (dt * g_mass g) (g_grav g)) in
    let dc := vscale (dt / g_mass g) (vadd (seg3 x 3) dl) in
    let da := fsum t (fun e => vscale dt (vcross (vsub (e_pos (d_eff (nth t (states q) dstate_new) e)) (vadd (seg3 x 0) dc)) (seg3 (ff u) (3 * e)))) v0 in
    vec9 dc dl da.
  (** The access dynamicsState(time_id). *)
  Definition fb_dynamics_checked (x : vec) (u : ctrl) (t : nat) : res vec := if (t <? List.length (states q))%nat then Ok (fb_dynamics x u t) else UB.

  (** l.57-86; the cost matrices are diagonal (configure, l.39-55).  [w_*] tracking, [f_*] final tracking. *)
  Definition quad3 (w d : vec3) : R := vdot d (V3 (vx w * vx d) (vy w * vy d) (vz w * vz d)).
  Variables (wu wc wl wa fc fl fa : vec3).
  Definition fb_objective (x : vec) (u : ctrl) (t : nat) (final : bool) : res R :=
    let com := if final then fc else wc in let lm := if final then fl else wl in let am := if final then fa else wa in
    if (t <? List.length (states q))%nat then
      let cost := fold_left (fun acc e => if fact t e then acc + quad3 wu (seg3 (ff u) (3 * e)) else acc) (seq 0 (g_neff g)) 0 in
      let r := nth (t - 1) (states q) dstate_new in    (* time_id-1, or 0 for time_id = 0 *)
      Ok (cost + quad3 com (vsub (seg3 x 0) (d_com r)) + quad3 lm (vsub (seg3 x 3) (d_lmom r)) + quad3 am (vsub (seg3 x 6) (d_amom r)))
    else UB.

  (** l.134-138: DynamicsFeedbackWrapper::forceGain; index 0 of no controls does not exist. *)
  Definition forceGain (tdim : nat) (us : cseq) (t : Z) : res mat :=
    if (tdim =? 0)%nat then UB else Ok (fb (us (Z.to_nat (Z.max (Z.min t (Z.of_nat tdim - 1)) 0)))).
End Feedback.
