(** * Model of the display helpers
    Sources: momentumopt/python/momentumopt/kinoptpy/utils.py l.22-60, momentumopt/python/momentumopt/helpers.py l.19-25, 238-245, 278-289.
    Reals are exact.  The display is the list of frames with the time at which they are shown; time.sleep of a negative number raises ValueError ([Throw]),
    drawing takes no time.  Not modelled: drawing, reading YAML. *)
From Coq Require Import Reals List Arith Bool.
Import ListNotations.
From Verif Require Import Base Vec3 SimModel.
Local Open Scope R_scope.

(** ** display_motion, utils.py l.22-28: [clock] is the time elapsed, [prev] the time stamp before (None for the first frame) *)
Fixpoint display_loop (clock : R) (prev : option R) (times : list R) : res (list R * R) :=
  match times with
  | [] => Ok ([], clock)
  | t :: r =>
      let d := match prev with None => t | Some p => t - p end in
      if Rlt_dec d 0 then Throw else bind (display_loop (clock + d) (Some t) r) (fun x => Ok (clock :: fst x, snd x))
  end.
Definition display_motion (times : list R) : res (list R * R) := display_loop 0 None times.

(** ** norm, utils.py l.31-53 *)
Definition sumsq (v : list R) : R := fold_right (fun x a => x * x + a) 0 v.
(** norm_ of a vector: error(...) is not defined: NameError for the empty one *)
Definition norm_vec (v : list R) : res R := match v with [] => Throw | _ => Ok (sqrt (sumsq v)) end.
Definition norm_num (x : R) : R := sqrt (x * x).
(** a list of functions evaluated at delta_t = 0.01, without weights *)
Fixpoint norm_list (vs : list (list R)) : res R := match vs with [] => Ok 0 | v :: r => bind (norm_vec v) (fun x => bind (norm_list r) (fun y => Ok (x + y))) end.
(** with weights: the values are computed first (l.42), then weighted (l.44-46), then normed again (l.50); weights[i] raises IndexError *)
Fixpoint norms (vs : list (list R)) : res (list R) := match vs with [] => Ok [] | v :: r => bind (norm_vec v) (fun x => bind (norms r) (fun l => Ok (x :: l))) end.
Fixpoint weighted (xs ws : list R) : res (list R) :=
  match xs with
  | [] => Ok []
  | x :: r => match ws with [] => Throw | w :: wr => bind (weighted r wr) (fun l => Ok (if Rlt_dec (/ 100000) (Rabs w) then w * x :: l else l)) end
  end.
Definition norm_weights (vs : list (list R)) (ws : list R) : res R :=
  bind (norms vs) (fun xs => bind (weighted xs ws) (fun l => Ok (fold_right (fun x a => norm_num x + a) 0 l))).

(** ** quat2mat, helpers.py l.19-25 *)
Definition quat2mat (w x y z : R) : vec3 * vec3 * vec3 :=
  (V3 (1 - 2*y*y - 2*z*z) (2*x*y - 2*z*w) (2*x*z + 2*y*w), V3 (2*x*y + 2*z*w) (1 - 2*x*x - 2*z*z) (2*y*z - 2*x*w), V3 (2*x*z - 2*y*w) (2*y*z + 2*x*w) (1 - 2*x*x - 2*y*y)).
(** ** The contact patch, helpers.py l.281-289: height above (px, py) of the plane through [point] with normal [n] *)
Definition patch (point n : vec3) (px py : R) : R := (- vx n * px - vy n * py - - vdot point n) * 1 / vz n.
(** ** Time steps, helpers.py l.238-245 *)
Fixpoint steps_loop (prev : R) (times : list R) : list R := match times with [] => [] | t :: r => (t - prev) :: steps_loop t r end.
Definition timesteps (times : list R) : list R := match times with [] => [] | t :: r => t :: steps_loop t r end.
