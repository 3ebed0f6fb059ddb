(** * Model of the robot wrapper of the kinematics in Python
    Source: momentumopt/python/momentumopt/robots/blmc_robot_wrapper.py.
    Reals are exact.  Pinocchio's functions of a configuration (local frame Jacobian, frame placement, centre of mass, its Jacobian, integrate) are
    parameters; what matters is the configuration they are evaluated at and which stored results are refreshed.  A frame is known by its name (getFrameId
    is injective on existing names).  [Throw] is a Python exception.  Not modelled: display, meshcat, centroidal momentum matrices. *)
From Coq Require Import Reals String List Arith ZArith Bool.
Import ListNotations.
From Verif Require Import Base Vec3 SimModel.
Local Open Scope R_scope.

(** ** numpy slices: v[start:stop:step] = x, step > 0 *)
Definition slice_set (start stop step : nat) (x : R) (v : list R) : list R :=
  map (fun p => if (start <=? fst p)%nat && (fst p <? stop)%nat && Nat.eqb ((fst p - start) mod step) 0 then x else snd p) (combine (seq 0 (length v)) v).
(** QuadrupedWrapper.set_init_config l.202-206: q_dummy[:] = angle; q_dummy[::2] = -0.5 * angle *)
Definition init_two (n : nat) (angle : R) : list R := slice_set 0 n 2 (- (1 / 2) * angle) (slice_set 0 n 1 angle (repeat 0 n)).
(** Quadruped12Wrapper l.250-252, BipedWrapper l.298-300: q_dummy[2::3] = angle; q_dummy[1:3] = -0.5 * angle *)
Definition init_three (n : nat) (angle : R) : list R := slice_set 1 3 1 (- (1 / 2) * angle) (slice_set 2 n 3 angle (repeat 0 n)).

(** ** The wrapper as a machine: the configuration, and the configuration the stored frame placements data.oMf belong to (None: never computed). *)
Definition rot := (vec3 * vec3 * vec3)%type.
Record pin (Q DQ : Type) := Pin {
  pi_exists : string -> bool;
  pi_local : Q -> string -> list (vec3 * vec3);            (* LOCAL frame Jacobian, columns (linear, angular) *)
  pi_rot : Q -> string -> rot; pi_pos : Q -> string -> vec3;
  pi_com : Q -> vec3; pi_jcom : Q -> list vec3;
  pi_integrate : Q -> DQ -> Q }.
Arguments Pin {Q DQ}. Arguments pi_exists {Q DQ}. Arguments pi_local {Q DQ}. Arguments pi_rot {Q DQ}. Arguments pi_pos {Q DQ}.
Arguments pi_com {Q DQ}. Arguments pi_jcom {Q DQ}. Arguments pi_integrate {Q DQ}.
Record wrap (Q : Type) := Wrap { w_q : Q; w_frames : option Q }.
Arguments Wrap {Q}. Arguments w_q {Q}. Arguments w_frames {Q}.

Section Wrapper.
  Context {Q DQ : Type}.
  Variable P : pin Q DQ.

  (** set_configuration l.26-28: forwardKinematics does not compute the frame placements *)
  Definition set_configuration (q : Q) (w : wrap Q) : wrap Q := Wrap q (w_frames w).
  (** update_configuration l.36-37 *)
  Definition update_configuration (d : DQ) (w : wrap Q) : wrap Q := Wrap (pi_integrate P (w_q w) d) (w_frames w).
  (** get_world_oriented_frame_jacobian l.44-50: SE3(R, 0).action is the block diagonal matrix (R, R) *)
  Definition world_jacobian (name : string) (w : wrap Q) : list (vec3 * vec3) * wrap Q :=
    let w' := Wrap (w_q w) (Some (w_q w)) in
    (map (fun c => (mul3 (pi_rot P (w_q w) name) (fst c), mul3 (pi_rot P (w_q w) name) (snd c))) (pi_local P (w_q w) name), w').

  (** get_jacobian l.52-87: the returned closure *)
  Inductive part := Lin | Ang | All.
  Inductive jfun := JComInternal | JFrameInternal (name : string) (r : part) | JFrameAt (name : string) (r : part).
  Definition the_part (dofs : option string) : part :=
    match dofs with
    | Some d => if String.eqb d "TRANSLATION" then Lin else if String.eqb d "ROTATION" then Ang else All
    | None => All
    end.
  Definition is_rotation (dofs : option string) : bool := match dofs with Some d => String.eqb d "ROTATION" | None => false end.
  Definition known (name : string) : bool :=
    if negb (pi_exists P name) && negb (String.eqb name "COM") then false else if String.eqb name "universe" || String.eqb name "root_joint" then false else true.
  Definition get_jacobian (name : string) (dofs : option string) (internal : bool) : res jfun :=
    if negb (known name) then Throw
    else if is_rotation dofs && String.eqb name "COM" then Throw
    else if internal then Ok (if String.eqb name "COM" then JComInternal else JFrameInternal name (the_part dofs))
    else if String.eqb name "COM" then Throw   (* self.Jcom: AttributeError *)
    else Ok (JFrameAt name (the_part dofs)).
  Inductive jac := JLin (l : list vec3) | JAll (l : list (vec3 * vec3)).
  Definition select (r : part) (l : list (vec3 * vec3)) : jac := match r with Lin => JLin (map fst l) | Ang => JLin (map snd l) | All => JAll l end.
  (** calling the closure; [arg] is the argument of eval_jac_at_q, which the body does not use *)
  Definition call_jacobian (f : jfun) (arg : Q) (w : wrap Q) : jac * wrap Q :=
    match f with
    | JComInternal => (JLin (pi_jcom P (w_q w)), w)
    | JFrameInternal n r => let '(l, w') := world_jacobian n w in (select r l, w')
    | JFrameAt n r => let '(l, w') := world_jacobian n w in (select r l, w')
    end.

  (** get_transformation l.105-128 *)
  Inductive tfun := TCom | TFrame (name : string) (dofs : option string).
  Definition get_transformation (name : string) (dofs : option string) : res tfun :=
    if negb (known name) then Throw else Ok (if String.eqb name "COM" then TCom else TFrame name dofs).
  Inductive place := PVec (v : vec3) | PRot (m : rot) | PBoth (m : rot) (v : vec3).
  Definition id_rot : rot := (V3 1 0 0, V3 0 1 0, V3 0 0 1).
  Definition frame_rot (w : wrap Q) (n : string) : rot := match w_frames w with Some q => pi_rot P q n | None => id_rot end.
  Definition frame_pos (w : wrap Q) (n : string) : vec3 := match w_frames w with Some q => pi_pos P q n | None => v0 end.
  Definition call_transformation (f : tfun) (w : wrap Q) : place :=
    match f with
    | TCom => PVec (pi_com P (w_q w))
    | TFrame n dofs => match the_part dofs with Lin => PVec (frame_pos w n) | Ang => PRot (frame_rot w n) | All => PBoth (frame_rot w n) (frame_pos w n) end
    end.

  (** A history of calls. *)
  Inductive call := CSet (q : Q) | CUpdate (d : DQ) | CJac (f : jfun) (arg : Q).
  Definition step (c : call) (w : wrap Q) : wrap Q :=
    match c with CSet q => set_configuration q w | CUpdate d => update_configuration d w | CJac f arg => snd (call_jacobian f arg w) end.
  Definition run (l : list call) (w : wrap Q) : wrap Q := fold_left (fun w c => step c w) l w.
End Wrapper.

(** ** get_desired_velocity l.130-140 for positions: (goal - transformation()) / delta_t *)
Definition desired_velocity (goal here : vec3) (dt : R) : vec3 := V3 ((vx goal - vx here) / dt) ((vy goal - vy here) / dt) ((vz goal - vz here) / dt).
