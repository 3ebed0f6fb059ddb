(** * What a user expects of the simulator wrapper *)
From Coq Require Import Reals String List Arith ZArith Bool Permutation.
Import ListNotations.
From Verif Require Import Base Vec3 SimModel.
Local Open Scope R_scope.

(** Bullet joints are named uniquely. *)
Definition unique_names (bmap : string -> option nat) : Prop := forall n m i, bmap n = Some i -> bmap m = Some i -> n = m.
(** Position of a joint among the joints of the pinocchio model: joint ids start at 2 (0 is the universe, 1 the floating base). *)
Definition place (pinid : string -> nat) (n : string) : nat := (pinid n - 2)%nat.
Definition unit_quat (q : list R) : Prop := nth 3 q 0 * nth 3 q 0 + nth 4 q 0 * nth 4 q 0 + nth 5 q 0 * nth 5 q 0 + nth 6 q 0 * nth 6 q 0 = 1.
(** Every joint gets the torque of its own place. *)
Definition torques_right (joints : list string) (bmap : string -> option nat) (pinid : string -> nat) (tau : list R) (b : bullet) : Prop :=
  forall n j, In n joints -> bmap n = Some j -> bu_torque b j = nth (place pinid n) tau 0.
(** The force of a contact point on its foot. *)
Definition point_force (c : contact) : vec3 := vadd (vadd (vscale (co_nf c) (co_normal c)) (vscale (co_f1 c) (co_d1 c))) (vscale (co_f2 c) (co_d2 c)).
(** The intervals of a sequence of readings (time, force is low): from the first low reading to the first reading that is not. *)
Fixpoint intervals (start : option R) (l : list (R * bool)) : list (list R) :=
  match l with
  | [] => match start with Some s => [[s]] | None => [] end
  | (t, low) :: r =>
      match start, low with
      | None, true => intervals (Some t) r
      | None, false => intervals None r
      | Some s, true => intervals (Some s) r
      | Some s, false => [s; t] :: intervals None r
      end
  end.
Definition is_low (f : vec3) : bool := if Rlt_dec (Rabs (vx f) + Rabs (vy f) + Rabs (vz f)) (/ 1000) then true else false.
(** The readings of the foot with bullet link [link] over the passes k, k+1, ... (one millisecond each). *)
Fixpoint readings (link : nat) (k : nat) (cps : list (list contact)) : list (R * bool) :=
  match cps with
  | [] => []
  | cp :: r => map (fun c => (INR k / 1000, is_low (point_force c))) (filter (fun c => Nat.eqb (co_link c) link) cp) ++ readings link (S k) r
  end.
