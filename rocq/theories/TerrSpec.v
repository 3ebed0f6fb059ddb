(** * Specification: convex polygons in space *)
From Coq Require Import Reals List Arith ZArith.
Import ListNotations.
From Verif Require Import Base Vec3 TerrModel.
Local Open Scope R_scope.

Definition vertex (vs : list vec3) (i : nat) : vec3 := nth i vs v0.
Definition next (vs : list vec3) (i : nat) : nat := if (S i =? length vs)%nat then O else S i.
(** Signed area seen from the side [up] points to: positive if a, b, c turn counter-clockwise. *)
Definition turn (up a b c : vec3) : R := vdot (vcross (vsub b a) (vsub c a)) up.
(** vs are the corners, in counter-clockwise order seen from [up], of a strictly convex polygon in a plane orthogonal to [up]. *)
Definition ccw_polygon (up : vec3) (vs : list vec3) : Prop :=
  (3 <= length vs)%nat /\
  (forall i j, (i < length vs)%nat -> (j < length vs)%nat -> vdot (vsub (vertex vs i) (vertex vs j)) up = 0) /\
  (forall i j, (i < length vs)%nat -> (j < length vs)%nat -> j <> i -> j <> next vs i -> 0 < turn up (vertex vs i) (vertex vs (next vs i)) (vertex vs j)).
(** In the plane of the polygon. *)
Definition in_plane (up : vec3) (vs : list vec3) (x : vec3) : Prop := vdot (vsub x (vertex vs 0)) up = 0.
(** x is a convex combination of the vertices. *)
Fixpoint combination (w : list R) (vs : list vec3) : vec3 :=
  match w, vs with a :: w', v :: vs' => vadd (vscale a v) (combination w' vs') | _, _ => v0 end.
Definition in_hull (vs : list vec3) (x : vec3) : Prop :=
  exists w, length w = length vs /\ Forall (fun a => 0 <= a) w /\ fold_right Rplus 0 w = 1 /\ x = combination w vs.
(** All half-spaces of the region contain x (and all are finite). *)
Definition in_region (r : region) (x : vec3) : Prop :=
  length (r_A r) = length (r_b r) /\
  forall i oa ob, nth_error (r_A r) i = Some oa -> nth_error (r_b r) i = Some ob -> exists a b, oa = Some a /\ ob = Some b /\ vdot a x <= b.
