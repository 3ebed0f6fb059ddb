(** * What a user expects of the containers of a kinematic state: independent variables, each returning what was last assigned to it *)
From Coq Require Import Reals List Arith ZArith.
Import ListNotations.
From Verif Require Import Base Vec3 RbsModel.
Local Open Scope R_scope.

(** The value of the last assignment of a history that concerns a variable, [d] if there is none. *)
Definition last_write {A} (concerns : kop -> option A) (d : A) (h : list kop) : A :=
  fold_left (fun a o => match concerns o with Some x => x | None => a end) h d.

Definition w_base_pos (o : kop) : option (list R) :=
  match o with SBasePos [a; b; c] => Some [a; b; c] | SPosture p => Some [vx (po_pos p); vy (po_pos p); vz (po_pos p)] | _ => None end.
(** Orientations are exchanged as arrays x, y, z, w. *)
Definition w_base_ori (o : kop) : option (list R) :=
  match o with
  | SBaseOri [x; y; z; w] => Some [x; y; z; w]
  | SPosture p => Some [qx (po_ori p); qy (po_ori p); qz (po_ori p); qw (po_ori p)]
  | _ => None
  end.
Definition w_jnt (o : kop) : option (list R) := match o with SJnt v => Some v | SPosture p => Some (po_jnt p) | _ => None end.
(** The three parts of a vector of generalised rates: entries 0-2, 3-5 and the others. *)
Definition lin_part (v : list R) : list R := [nth 0 v 0; nth 1 v 0; nth 2 v 0].
Definition ang_part (v : list R) : list R := [nth 3 v 0; nth 4 v 0; nth 5 v 0].
Definition jnt_part (v : list R) : list R := skipn 6 v.
Definition ww_lin (w : wr) : option (list R) := match w with WGen v => Some (lin_part v) | WLin [a; b; c] => Some [a; b; c] | _ => None end.
Definition ww_ang (w : wr) : option (list R) := match w with WGen v => Some (ang_part v) | WAng [a; b; c] => Some [a; b; c] | _ => None end.
Definition ww_jnt (w : wr) : option (list R) := match w with WGen v => Some (jnt_part v) | WJnt v => Some v | _ => None end.
Definition w_vel (part : list R -> list R) (ww : wr -> option (list R)) (o : kop) : option (list R) :=
  match o with SVel w => ww w | SVelocity r => Some (part (ra_gen r)) | _ => None end.
Definition w_acc (part : list R -> list R) (ww : wr -> option (list R)) (o : kop) : option (list R) :=
  match o with SAcc w => ww w | SAcceleration r => Some (part (ra_gen r)) | _ => None end.
Definition w_com (o : kop) : option (list R) := match o with SCom [a; b; c] => Some [a; b; c] | _ => None end.
Definition w_lmom (o : kop) : option (list R) := match o with SLmom [a; b; c] => Some [a; b; c] | _ => None end.
Definition w_amom (o : kop) : option (list R) := match o with SAmom [a; b; c] => Some [a; b; c] | _ => None end.
(** The position of end-effector k. *)
Definition w_eff (k : nat) (o : kop) : option vec3 :=
  match o with
  | SEffs l => Some (nth k l v0)
  | SEffAt i [a; b; c] => if Nat.eqb i k then Some (V3 a b c) else None
  | _ => None
  end.

(** Assignments whose arrays of free size have the size the robot has: n joints, n+6 rates, 4 end-effectors. *)
Definition sized_wr (n : nat) (w : wr) : Prop :=
  match w with WGen v => length v = (n + 6)%nat | WJnt v => length v = n | _ => True end.
Definition sized (n : nat) (o : kop) : Prop :=
  match o with
  | SJnt v => length v = n
  | SVel w | SAcc w => sized_wr n w
  | SPosture p => po_n p = n /\ length (po_jnt p) = n
  | SVelocity r | SAcceleration r => ra_n r = n /\ length (ra_gen r) = (n + 6)%nat
  | SEffs l => length l = n_endeffs
  | _ => True
  end.
