(** * Model of the terrain regions
    Source: momentumopt/src/momentumopt/cntopt/TerrainDescription.cpp, TerrainDescription.hpp.  Reals are exact; [None] is a vector or number that is
    not finite because a zero norm was divided by. *)
From Coq Require Import Reals List Arith ZArith Bool.
Import ListNotations.
From Verif Require Import Base Vec3.
Local Open Scope R_scope.

Definition vnorm (v : vec3) : R := sqrt (vdot v v).
(** v / v.norm() *)
Definition vunit (v : vec3) : option vec3 := if Req_EM_T (vnorm v) 0 then None else Some (vscale (/ vnorm v) v).
(** TerrainRegion, TerrainDescription.hpp l.61-66 *)
Record region := Reg { r_id : Z; r_normal : option vec3; r_point : vec3; r_A : list (option vec3); r_b : list (option R);
                       r_rot0 : option vec3; r_rot1 : option vec3; r_rot2 : option vec3 }.
(** The matrix shifted by one row: block(1,0,n-1,3) and then row 0. *)
Definition shifted (vs : list vec3) : list vec3 := match vs with [] => [] | v :: r => r ++ [v] end.
(** A_ before the loop, l.31-33, and vmat, l.39-42 *)
Definition edges (vs : list vec3) : list vec3 := map (fun p => vadd (vscale (-1) (fst p)) (snd p)) (combine vs (shifted vs)).
Definition middles (vs : list vec3) : list vec3 := map (fun p => vadd (vscale (/ 2) (fst p)) (vscale (/ 2) (snd p))) (combine vs (shifted vs)).
Definition vsum (vs : list vec3) : vec3 := fold_left vadd vs v0.
(** l.34-37: one row *)
Definition half_row (normal : option vec3) (e : vec3) : option vec3 := match normal with Some n => vunit (vcross n e) | None => None end.
Definition odot (m : vec3) (a : option vec3) : option R := match a with Some a => Some (vdot m a) | None => None end.
(** TerrainRegion::initialize, l.14-54; row(2) of fewer than three rows is an access outside. *)
Definition init_region (vs : list vec3) (id : Z) : res region :=
  match vs with
  | p0 :: p1 :: p2 :: _ =>
      let normal := vunit (vcross (vsub p2 p1) (vsub p1 p0)) in
      let A := map (half_row normal) (edges vs) in
      let b := map (fun p => odot (fst p) (snd p)) (combine (middles vs) A) in
      let a1 := vsub p0 p1 in let a2 := vsub p1 p2 in
      Ok (Reg id normal (vscale (/ INR (length vs)) (vsum vs)) A b (vunit a1) (vunit a2) (vunit (vcross a1 a2)))
  | _ => UB
  end.
(** TerrainDescription::addTerrainRegion, l.70-75; loadFromFile l.87-102 adds the regions of the file in order. *)
Definition add_region (t : list region) (vs : list vec3) : res (list region) :=
  bind (init_region vs (Z.of_nat (length t + 1) - 1)) (fun r => Ok (t ++ [r])).
Definition load_regions (t : list region) (rs : list (list vec3)) : res (list region) := foldM add_region rs t.
