(** * Model of the momentum planner
    Sources: momentumopt/src/momentumopt/dynopt/DynamicsOptimizer.cpp, momentumopt/include/momentumopt/dynopt/DynamicsOptimizer.hpp.
    Reals are exact.  The modelling layer is the one of ExprsModel and ConicModel: the planner is the list of calls it makes.
    Not modelled: yaml output (saveToFile), timing, configuration files. *)
From Coq Require Import Reals List Arith ZArith Bool String Ascii.
Import ListNotations.
From Verif Require Import Base Vec3 ExprsModel ConicModel OptVarModel CntModel.
Local Open Scope R_scope.

(** PlannerSetting.hpp l.20 *)
Inductive heuristic := TrustRegion | SoftConstraint | TimeOptimization.
Definition is_timeopt (h : heuristic) : bool := match h with TimeOptimization => true | _ => false end.

(** The settings read by the planner (PlannerSetting::get); [g_wsoft] is the solver's SoftConstraintWeightReduced, [g_inf] SolverSetting::inf. *)
Record dset := DSet {
  g_N : nat; g_neff : nat; g_dt : R; g_mass : R; g_mg : R; g_grav : vec3; g_ext : vec3; g_heur : heuristic; g_linfric : bool; g_mu : R; g_minh : R;
  g_trqlo : R; g_trqhi : R; g_coprange : nat -> nat -> R; g_off : nat -> vec3; g_maxlen : nat -> R; g_fixed : bool; g_tlo : R; g_thi : R;
  g_inf : R; g_wsoft : R; g_via : list (R * vec3); g_maxit : nat; g_tol : R; g_improve : R;
  w_via : vec3; w_com : vec3; w_flmom : vec3; w_famom : vec3; w_lmom : vec3; w_amom : vec3; w_lmomd : vec3; w_amomd : vec3;
  w_leg : vec3; w_arm : vec3; w_legrate : vec3; w_armrate : vec3; w_legtrq : R; w_armtrq : R; w_time : R; w_timereg : R }.
(** Center of mass, linear and angular momentum of one state of the KinematicsSequence handed to optimize(). *)
Record kinref := Kin { k_com : vec3; k_lmom : vec3; k_amom : vec3 }.

(** Eigen Quaternion::toRotationMatrix(), column j. *)
Definition rotcol (q : quat) (j : nat) : vec3 :=
  let x := qx q in let y := qy q in let z := qz q in let w := qw q in
  match j with
  | O => V3 (1 - (2 * y * y + 2 * z * z)) (2 * x * y + 2 * z * w) (2 * x * z - 2 * y * w)
  | 1%nat => V3 (2 * x * y - 2 * z * w) (1 - (2 * x * x + 2 * z * z)) (2 * y * z + 2 * x * w)
  | _ => V3 (2 * x * z + 2 * y * w) (2 * y * z - 2 * x * w) (1 - (2 * x * x + 2 * y * y))
  end.

(** ** FrictionCone::getCone, DynamicsOptimizer.hpp l.27-43 *)
Definition clamp_mu (mu : R) : R := if Rle_dec mu (1 / 1000) then 1 / 1000 else mu.
Definition vnormalize (v : vec3) : vec3 := vscale (/ sqrt (vdot v v)) v.
Definition cone_vec0 (mu : R) : vec3 := vnormalize (V3 (/ 2 * sqrt 2) (/ 2 * sqrt 2) (- clamp_mu mu)).
(** l.34-37, 40: multiplication with fconemat. *)
Definition cone_turn (v : vec3) : vec3 :=
  let angle := 2 * PI / 4 in V3 (cos angle * vx v + - sin angle * vy v) (sin angle * vx v + cos angle * vy v) (vz v).
Definition cone_row (mu : R) (i : nat) : vec3 := Nat.iter i cone_turn (cone_vec0 mu).

(** Loops that append calls. *)
Definition flatM {A B} (f : A -> res (list B)) (l : list A) : res (list B) :=
  foldM (fun acc a => bind (f a) (fun r => Ok (acc ++ r))) l [].
Definition axes : list nat := [0; 1; 2]%nat.

Section Problem.
  Variables (g : dset) (q : dseq) (ini : dstate) (cs : nat -> list contact) (kin : list kinref) (goal wtrack : vec3) (first : bool).
  (** What a read of a contact type before the first or after the last contact yields (None: crash); see [contact_type]. *)
  Variable stray : nat -> nat -> option ctype.

  Definition steps : list nat := seq 0 (g_N g).
  Definition effs : list nat := seq 0 (g_neff g).
  (** dynamicsSequence().dynamicsState(t); [problem_calls] checks that the sequence has all steps. *)
  Definition st (t : nat) : dstate := nth t (states q) dstate_new.
  Definition act (t e : nat) : bool := e_act (d_eff (st t) e).
  Definition aid (t e : nat) : Z := e_aid (d_eff (st t) e).
  Definition timeopt : bool := is_timeopt (g_heur g).

  (** *** Variables, l.30-55 (blocks) and l.97-119 (columns).  vars_[i] is the variable of column i (theorem C32_vars_are_columns). *)
  Definition act_counts : list nat := map (fun e => Z.to_nat (act_steps q e)) effs.
  Definition dblocks : list blockspec := dyn_blocks (g_inf g) (g_N g) timeopt act_counts.
  Definition dovs : list optvar := fst (init_blocks dblocks 0).
  Definition ov_none : optvar := mkOV "C"%char 0 0 0 (fun _ _ => 0) (fun _ _ => 0) (fun _ _ => 0).
  Definition bCOM : nat := 0. Definition bLM : nat := 1. Definition bAM : nat := 2. Definition bDT : nat := 3. Definition bLMD : nat := 4. Definition bAMD : nat := 5.
  Definition bEff (e k : nat) : nat := ((if timeopt then 6 else 3) + 5 * e + k)%nat.
  Definition bLB e := bEff e 0. Definition bUB e := bEff e 1. Definition bFRC e := bEff e 2. Definition bCOP e := bEff e 3. Definition bTRQ e := bEff e 4.
  Definition col (b : nat) (r : nat) (c : Z) : nat := Z.to_nat (ov_id (nth b dovs ov_none) (Z.of_nat r) c).
  (** LinExpr(vars_[block.id(r,c)]) *)
  Definition ev (b r : nat) (c : Z) : linexpr := le_of_var (col b r c) 1.
  Definition evt (b r t : nat) : linexpr := ev b r (Z.of_nat t).
  Definition eff_ev (b r t e : nat) : linexpr := ev b r (aid t e).
  Definition ec (a : R) : linexpr := le_of_const a.

  (** *** Contacts, l.737-753 *)
  Definition contact_at (t e : nat) : res contact := vget (cs e) (e_cid (d_eff (st t) e)).
  (** contactType is called for inactive end-effectors too, whose contact number may be -1. *)
  Definition contact_type (t e : nat) : res ctype :=
    match contact_at t e with
    | Ok c => Ok (c_type c)
    | _ => match stray t e with Some ty => Ok ty | None => UB end
    end.

  (** Lever arm, l.214-256 and l.454-466: contact location - com + cop. *)
  Definition lever (c : contact) (t e i : nat) : linexpr :=
    le_add (le_add (le_sub (ec (vget3 (c_pos c) i)) (evt bCOM i t)) (le_scale (eff_ev (bCOP e) 0 t e) (vget3 (rotcol (c_ori c) 0) i)))
           (le_scale (eff_ev (bCOP e) 1 t e) (vget3 (rotcol (c_ori c) 1) i)).
  Definition force (t e i : nat) : linexpr := eff_ev (bFRC e) i t e.
  (** LinExpr()-a+b, LinExpr()-a-b *)
  Definition negadd (a b : linexpr) : linexpr := le_add (le_sub (ec 0) a) b.
  Definition negsub (a b : linexpr) : linexpr := le_sub (le_sub (ec 0) a) b.
  (** The two squares of the upper and of the lower part for axis i, l.467-486. *)
  Definition ub_parts (c : contact) (t e i : nat) : linexpr * linexpr :=
    let l := lever c t e in let f := force t e in
    match i with
    | O => (negadd (l 2%nat) (f 1%nat), le_add (l 1%nat) (f 2%nat))
    | 1%nat => (le_add (l 2%nat) (f 0%nat), negadd (l 0%nat) (f 2%nat))
    | _ => (negadd (l 1%nat) (f 0%nat), le_add (l 0%nat) (f 1%nat))
    end.
  Definition lb_parts (c : contact) (t e i : nat) : linexpr * linexpr :=
    let l := lever c t e in let f := force t e in
    match i with
    | O => (negsub (l 2%nat) (f 1%nat), le_sub (l 1%nat) (f 2%nat))
    | 1%nat => (le_sub (l 2%nat) (f 0%nat), negsub (l 0%nat) (f 2%nat))
    | _ => (negsub (l 1%nat) (f 0%nat), le_sub (l 0%nat) (f 1%nat))
    end.

  (** *** Objective, l.121-256 *)
  Definition ref_at (t : nat) : kinref := nth t kin (Kin v0 v0 v0).
  Definition sdt (t : nat) : R := d_time (st t).
  Definition is_foot (e : nat) : bool := (e <=? 1)%nat.      (* right foot 0, left foot 1, Definitions.hpp l.24-27 *)
  Definition is_hand (e : nat) : bool := ((e =? 2) || (e =? 3))%nat.   (* Definitions.hpp l.30-35 *)
  (** l.123-128; id() clamps the column int(time/dt). *)
  Definition via_terms : list (R * linexpr) :=
    flat_map (fun v => map (fun i => (vget3 (w_via g) i, le_sub (ev bCOM i (trunc (fst v / g_dt g))) (ec (vget3 (snd v) i)))) axes) (g_via g).
  (** l.133-142 *)
  Definition mom_terms (t i : nat) : list (R * linexpr) :=
    (if (S t =? g_N g)%nat
     then [(vget3 (w_com g) i, le_sub (evt bCOM i t) (ec (vget3 goal i)));
           (vget3 (w_flmom g) i, le_sub (evt bLM i t) (ec (vget3 (k_lmom (ref_at t)) i)));
           (vget3 (w_famom g) i, le_sub (evt bAM i t) (ec (vget3 (k_amom (ref_at t)) i)))]
     else [(vget3 (w_lmom g) i, le_sub (evt bLM i t) (ec (vget3 (k_lmom (ref_at t)) i)));
           (vget3 (w_amom g) i, le_sub (evt bAM i t) (ec (vget3 (k_amom (ref_at t)) i)))])
    ++ [(vget3 wtrack i, le_sub (evt bCOM i t) (ec (vget3 (k_com (ref_at t)) i)))].
  (** l.144-156 *)
  Definition rate_terms (t i : nat) : list (R * linexpr) :=
    if timeopt then [(vget3 (w_lmomd g) i, evt bLMD i t); (vget3 (w_amomd g) i, evt bAMD i t)]
    else let prev b v := match t with O => ec v | S t' => evt b i t' end in
      [(vget3 (w_lmomd g) i, le_scale (le_sub (evt bLM i t) (prev bLM (vget3 (d_lmom ini) i))) (1 / sdt t));
       (vget3 (w_amomd g) i, le_scale (le_sub (evt bAM i t) (prev bAM (vget3 (d_amom ini) i))) (1 / sdt t))].
  (** l.158-164 *)
  Definition force_terms (t i : nat) : list (R * linexpr) :=
    flat_map (fun e => if act t e then [(vget3 (if is_foot e then w_leg g else w_arm g) i, force t e i)] else []) effs.
  (** l.166-196 *)
  Definition force_rate_terms (t i : nat) : list (R * linexpr) :=
    flat_map (fun e => if act t e then
      let w := vget3 (if is_hand e then w_armrate g else w_legrate g) i in
      let cur := force t e i in
      let next := if (S t =? g_N g)%nat then cur else if act (S t) e then force (S t) e i else ec 0 in
      let prev := match t with O => ec (vget3 (e_frc (d_eff ini e)) i) | S t' => if act t' e then force t' e i else ec 0 end in
      [(w, le_sub next cur); (w, le_sub cur prev)] else []) effs.
  (** l.199-204 *)
  Definition torque_terms (t : nat) : list (R * linexpr) :=
    flat_map (fun e => if act t e then [(if is_foot e then w_legtrq g else w_armtrq g, eff_ev (bTRQ e) 0 t e)] else []) effs.
  (** l.207-211 *)
  Definition time_terms (t : nat) : list (R * linexpr) :=
    if timeopt then [(w_time g, evt bDT 0 t); (w_timereg g, le_sub (evt bDT 0 t) (ec (g_dt g)))] else [].
  (** The first-order model of a square at the value [v]: v^2 + (e - v)*2*v. *)
  Definition lin_sq (e : linexpr) (v : R) : linexpr := le_scale (le_scale (le_subc e v) 2) v.
  (** l.214-256: values stored in the sequence. *)
  Definition lever_val (c : contact) (t e i : nat) : R :=
    vget3 (c_pos c) i - vget3 (d_com (st t)) i + vget3 (rotcol (c_ori c) 0) i * vx (e_cop (d_eff (st t) e)) + vget3 (rotcol (c_ori c) 1) i * vy (e_cop (d_eff (st t) e)).
  Definition part_vals (sgn : R) (c : contact) (t e i : nat) : R * R :=
    let l := lever_val c t e in let f := fun k => sgn * vget3 (e_frc (d_eff (st t) e)) k in
    match i with
    | O => (- l 2%nat + f 1%nat, l 1%nat + f 2%nat)
    | 1%nat => (l 2%nat + f 0%nat, - l 0%nat + f 2%nat)
    | _ => (- l 1%nat + f 0%nat, l 0%nat + f 1%nat)
    end.
  (** l.214-256: one soft term. *)
  Definition soft_term (parts : linexpr * linexpr) (vals : R * R) (bound : linexpr) : R * linexpr :=
    (g_wsoft g, le_sub (le_add (le_add (ec (fst vals ^ 2 + snd vals ^ 2)) (lin_sq (fst parts) (fst vals))) (lin_sq (snd parts) (snd vals))) bound).
  (** l.214-256 *)
  Definition soft_terms : res (list (R * linexpr)) :=
    if negb first && timeopt then
      flatM (fun t => flatM (fun e => if act t e then bind (contact_at t e) (fun c =>
        Ok (flat_map (fun i => [soft_term (ub_parts c t e i) (part_vals 1 c t e i) (eff_ev (bUB e) i t e);
                                soft_term (lb_parts c t e i) (part_vals (-1) c t e i) (eff_ev (bLB e) i t e)]) axes)) else Ok []) effs) steps
    else Ok [].
  Definition obj_terms : list (R * linexpr) :=
    via_terms ++ flat_map (fun t => flat_map (fun i => mom_terms t i ++ rate_terms t i ++ force_terms t i ++ force_rate_terms t i) axes ++ torque_terms t ++ time_terms t) steps.
  Definition q_of (ts : list (R * linexpr)) : quadexpr := fold_left (fun o x => q_addQua o (fst x) (snd x)) ts q_empty.

  (** *** Constraints *)
  (** l.260-268: contactLocation(0, 0, 2) for every step. *)
  Definition height_calls : res (list call) :=
    flatM (fun t => bind (contact_at 0 0) (fun c => Ok [CAddLin (le_sub (evt bCOM 2 t) (ec (vz (c_pos c)))) ">" (ec (g_minh g))])) steps.
  (** l.270-276 *)
  Definition horizon_calls : list call :=
    if g_fixed g && timeopt then [CAddLin (fold_left (fun l t => le_add l (evt bDT 0 t)) steps (ec 0)) "=" (ec (INR (g_N g) * g_dt g))] else [].
  (** l.278-294 *)
  Definition bound_calls : list call :=
    flat_map (fun t =>
      (if timeopt then [CAddLin (evt bDT 0 t) ">" (ec (g_tlo g)); CAddLin (evt bDT 0 t) "<" (ec (g_thi g))] else []) ++
      flat_map (fun e => if act t e then
        [CAddLin (eff_ev (bTRQ e) 0 t e) ">" (ec (g_trqlo g)); CAddLin (eff_ev (bTRQ e) 0 t e) "<" (ec (g_trqhi g));
         CAddLin (eff_ev (bCOP e) 0 t e) ">" (ec (g_coprange g e 0)); CAddLin (eff_ev (bCOP e) 0 t e) "<" (ec (g_coprange g e 1));
         CAddLin (eff_ev (bCOP e) 1 t e) ">" (ec (g_coprange g e 2)); CAddLin (eff_ev (bCOP e) 1 t e) "<" (ec (g_coprange g e 3))] else []) effs) steps.
  (** l.302-309: one row of cone_matrix_*rotation^T. *)
  Definition cone_coeff (c : contact) (row i : nat) : R :=
    let v := cone_row (g_mu g) row in
    vx v * vget3 (rotcol (c_ori c) 0) i + vy v * vget3 (rotcol (c_ori c) 1) i + vz v * vget3 (rotcol (c_ori c) 2) i.
  Definition lin_friction (c : contact) (t e row : nat) : call :=
    CAddLin (fold_left (fun l i => le_add l (le_scale (force t e i) (cone_coeff c row i))) axes (ec 0)) "<" (ec 0).
  (** l.310-319 *)
  Definition local_force (c : contact) (t e j : nat) : linexpr :=
    fold_left (fun l i => le_add l (le_scale (force t e i) (vget3 (rotcol (c_ori c) j) i))) axes (ec 0).
  Definition soc_friction (c : contact) (t e : nat) : call :=
    CAddSoc (q_of [(1, local_force c t e 0); (1, local_force c t e 1)]) "<" (le_scale (local_force c t e 2) (g_mu g)).
  (** l.296-323 *)
  Definition friction_calls : res (list call) :=
    flatM (fun t => flatM (fun e => bind (contact_type t e) (fun ty =>
      match ty with
      | FullContact => Ok []
      | _ => if act t e then bind (contact_at t e) (fun c =>
               Ok (if g_linfric g then map (lin_friction c t e) [0; 1; 2; 3]%nat else [soc_friction c t e])) else Ok []
      end)) effs) steps.

  (** l.328-347, 410-442: the value before the first step comes from the initial state. *)
  Definition before (b i t : nat) (v : vec3) : linexpr := match t with O => ec (vget3 v i) | S t' => evt b i t' end.
  (** l.328-333, 410-415 *)
  Definition com_call (t i : nat) : call :=
    CAddLin (le_sub (le_sub (evt bCOM i t) (before bCOM i t (d_com ini))) (le_scale (evt bLM i t) (sdt t / g_mass g))) "=" (ec 0).
  (** l.335-347: first pass of the time optimisation. *)
  Definition rate_call (b bd i t : nat) (v : vec3) : call :=
    CAddLin (le_sub (le_sub (evt b i t) (before b i t v)) (le_scale (evt bd i t) (sdt t))) "=" (ec 0).
  (** l.349-387: product of dt and a rate linearised at the values stored in the sequence; k is the factor 0.25/m or 0.25. *)
  Definition product_lin (dt a : linexpr) (dtv av k : R) : linexpr :=
    le_sub (le_scale (le_add (ec ((dtv + av) ^ 2)) (le_scale (le_scale (le_subc (le_add dt a) (dtv + av)) 2) (dtv + av))) k)
           (le_scale (le_add (ec ((dtv - av) ^ 2)) (le_scale (le_scale (le_subc (le_sub dt a) (dtv - av)) 2) (dtv - av))) k).
  Definition product_call (b ba i t : nat) (v stored : vec3) (k : R) : call :=
    CAddLin (le_add (le_add (ec 0) (le_sub (before b i t v) (evt b i t))) (product_lin (evt bDT 0 t) (evt ba i t) (sdt t) (vget3 stored i) k)) "=" (ec 0).
  (** l.389-395 *)
  Definition lmomd_call (t i : nat) : call :=
    CAddLin (fold_left (fun l e => if act t e then le_add l (le_scale (force t e i) (g_mg g)) else l) effs
               (le_sub (ec (g_mass g * vget3 (g_grav g) i)) (evt bLMD i t))) "=" (ec 0).
  (** l.397-408 *)
  Definition amomd_calls (t : nat) : res (list call) :=
    flatM (fun i => bind (foldM (fun l e => if act t e then bind (contact_at t e) (fun c =>
        Ok (le_add (le_add l (le_scale (le_scale (le_sub (eff_ev (bUB e) i t e) (eff_ev (bLB e) i t e)) (/ 4)) (g_mg g)))
                   (le_scale (eff_ev (bTRQ e) 0 t e) (vget3 (rotcol (c_ori c) 2) i)))) else Ok l) effs (le_sub (ec 0) (evt bAMD i t)))
      (fun l => Ok [CAddLin l "=" (ec 0)])) axes.
  (** l.417-426 *)
  Definition lmom_call (t i : nat) : call :=
    let l0 := le_sub (le_sub (evt bLM i t) (ec (sdt t * (g_mass g * vget3 (g_grav g) i)))) (before bLM i t (d_lmom ini)) in
    let l1 := fold_left (fun l e => if act t e then le_add l (le_scale (force t e i) (- sdt t * g_mg g)) else l) effs l0 in
    let l2 := if (t =? 0)%nat then le_add l1 (le_scale (ec (vget3 (g_ext g) i)) (- sdt t * g_mg g)) else l1 in
    CAddLin l2 "=" (ec 0).
  (** l.428-442 *)
  Definition amom_calls (t : nat) : res (list call) :=
    flatM (fun i => bind (foldM (fun l e => if act t e then bind (contact_at t e) (fun c =>
        Ok (le_add (le_add l (le_scale (le_sub (eff_ev (bLB e) i t e) (eff_ev (bUB e) i t e)) (/ 4 * sdt t * g_mg g)))
                   (le_scale (eff_ev (bTRQ e) 0 t e) (- vget3 (rotcol (c_ori c) 2) i * sdt t)))) else Ok l) effs
          (le_sub (evt bAM i t) (before bAM i t (d_amom ini))))
      (fun l => Ok [CAddLin l "=" (ec 0)])) axes.
  (** l.325-444 *)
  Definition dynamics_calls : res (list call) :=
    flatM (fun t =>
      if timeopt then
        bind (amomd_calls t) (fun am =>
        Ok ((if first then map (com_call t) axes ++ map (fun i => rate_call bLM bLMD i t (d_lmom ini)) axes ++ map (fun i => rate_call bAM bAMD i t (d_amom ini)) axes
             else map (fun i => product_call bCOM bLM i t (d_com ini) (d_lmom (st t)) (/ 4 / g_mass g)) axes
                  ++ map (fun i => product_call bLM bLMD i t (d_lmom ini) (d_lmomd (st t)) (/ 4)) axes
                  ++ map (fun i => product_call bAM bAMD i t (d_amom ini) (d_amomd (st t)) (/ 4)) axes)
            ++ map (lmomd_call t) axes ++ am))
      else bind (amom_calls t) (fun am => Ok (map (com_call t) axes ++ map (lmom_call t) axes ++ am))) steps.
  (** l.446-452 *)
  Definition qapprox : approx :=
    match g_heur g with TimeOptimization => ApproxNone | TrustRegion => ApproxTrustRegion | SoftConstraint => ApproxSoftConstraint end.
  (** l.454-493; length constraint l.488-490 *)
  Definition cone_calls (c : contact) (t e : nat) : list call :=
    map (fun i => CAddQua (q_of [(1, fst (ub_parts c t e i)); (1, snd (ub_parts c t e i))]) "<" (eff_ev (bUB e) i t e) qapprox) axes
    ++ map (fun i => CAddQua (q_of [(1, fst (lb_parts c t e i)); (1, snd (lb_parts c t e i))]) "<" (eff_ev (bLB e) i t e) qapprox) axes
    ++ [CAddQua (q_of (map (fun i => (1, le_subc (lever c t e i) (vget3 (g_off g e) i))) axes)) "<" (ec (g_maxlen g e ^ 2)) ApproxNone].
  Definition quad_calls : res (list call) :=
    flatM (fun t => flatM (fun e => if act t e then bind (contact_at t e) (fun c => Ok (cone_calls c t e)) else Ok []) effs) steps.

  (** l.97-119: the addVar calls, in the order of the blocks (bounds and guess irrelevant for the constraints). *)
  Definition var_calls : list call :=
    flat_map (fun b => map (fun rc => CAddVar Continuous (b_lb b (fst rc) (snd rc)) (b_ub b (fst rc) (snd rc)) (b_guess b (fst rc) (snd rc)))
                         (flat_map (fun c => map (fun r => (r, c)) (zseq (Z.of_nat (b_rows b)))) (zseq (Z.of_nat (b_cols b))))) dblocks.
  (** l.95-493: everything handed to the model.  The states and references of all N steps are read. *)
  Definition setup_calls : res (list call) :=
    if ((List.length (states q) <? g_N g) || (List.length kin <? g_N g))%nat then UB else
    bind soft_terms (fun so =>
    bind height_calls (fun hc => bind friction_calls (fun fc => bind dynamics_calls (fun dc => bind quad_calls (fun qc =>
    Ok ([CSetObj (q_of (obj_terms ++ so)) (ec 0)] ++ hc ++ horizon_calls ++ bound_calls ++ fc ++ dc ++ qc)))))).
  Definition problem_calls : res (list call) := bind setup_calls (fun s => Ok (var_calls ++ s)).

  (** *** After the solve, l.495-598.  [x] is the value of every column. *)
  Variable x : nat -> R.
  (** saveSolution, l.615-623: entry (r,c) of the block. *)
  Definition val (b r : nat) (c : Z) : R := x (col b r c).
  Definition val3 (b : nat) (c : Z) : vec3 := V3 (val b 0 c) (val b 1 c) (val b 2 c).
  (** The contact of an active end-effector (out of range reads were found by [setup_calls]). *)
  Definition contact_of_active (t e : nat) : contact := match contact_at t e with Ok c => c | _ => Cnt 0 0 v0 qone FreeContact false 0 0 end.
  (** l.543-545, 574-576: frc. *)
  Definition frc_val (t e : nat) : vec3 := vscale (g_mg g) (val3 (bFRC e) (aid t e)).
  Definition dt_val (t : nat) : R := val bDT 0 (Z.of_nat t).
  (** l.530-551: linear momentum and center of mass out of the forces (time optimisation). *)
  Definition lin_step (t : nat) (prev : vec3) : vec3 :=
    fold_left (fun l e => if act t e then vadd l (vscale (dt_val t) (frc_val t e)) else l) effs
              (vadd prev (vscale (dt_val t) (vscale (g_mass g) (g_grav g)))).
  Fixpoint linmom (t : nat) : vec3 := match t with O => lin_step 0 (d_lmom ini) | S t' => lin_step t (linmom t') end.
  Definition com_step (t : nat) (prev : vec3) : vec3 := vadd prev (vscale (1 / g_mass g * dt_val t) (linmom t)).
  Fixpoint compos (t : nat) : vec3 := match t with O => com_step 0 (d_com ini) | S t' => com_step t (compos t') end.
  (** l.560-573: len. *)
  Definition len_val (t e : nat) : vec3 :=
    let c := contact_of_active t e in
    let com := if timeopt then compos t else val3 bCOM (Z.of_nat t) in
    vadd (vadd (vsub (c_pos c) com) (vscale (val (bCOP e) 0 (aid t e)) (rotcol (c_ori c) 0))) (vscale (val (bCOP e) 1 (aid t e)) (rotcol (c_ori c) 1)).
  Definition trq_val (t e : nat) : vec3 := vscale (val (bTRQ e) 0 (aid t e)) (rotcol (c_ori (contact_of_active t e)) 2).
  (** l.553-581: angular momentum; the time is the one in the sequence. *)
  Definition ang_step (t : nat) (prev : vec3) : vec3 :=
    fold_left (fun l e => if act t e then vadd l (vscale (sdt t) (vadd (vcross (len_val t e) (frc_val t e)) (trq_val t e))) else l) effs prev.
  Fixpoint angmom (t : nat) : vec3 := match t with O => ang_step 0 (d_amom ini) | S t' => ang_step t (angmom t') end.

  (** *** storeSolution, l.625-675.  [am] is the guess matrix of amom_. *)
  Definition upd_state (l : list dstate) (i : Z) (f : dstate -> dstate) : res (list dstate) := bind (vget l i) (fun d => vset l i (f d)).
  Definition set_com (v : vec3) (d : dstate) : dstate := Dyn (d_time d) v (d_lmom d) (d_amom d) (d_lmomd d) (d_amomd d) (d_eff d).
  Definition set_lmom (v : vec3) (d : dstate) : dstate := Dyn (d_time d) (d_com d) v (d_amom d) (d_lmomd d) (d_amomd d) (d_eff d).
  Definition set_amom (v : vec3) (d : dstate) : dstate := Dyn (d_time d) (d_com d) (d_lmom d) v (d_lmomd d) (d_amomd d) (d_eff d).
  Definition set_time (v : R) (d : dstate) : dstate := Dyn v (d_com d) (d_lmom d) (d_amom d) (d_lmomd d) (d_amomd d) (d_eff d).
  Definition set_lmomd (v : vec3) (d : dstate) : dstate := Dyn (d_time d) (d_com d) (d_lmom d) (d_amom d) v (d_amomd d) (d_eff d).
  Definition set_amomd (v : vec3) (d : dstate) : dstate := Dyn (d_time d) (d_com d) (d_lmom d) (d_amom d) (d_lmomd d) v (d_eff d).
  Definition set_frc (v : vec3) (e : effst) : effst := Eff (e_act e) (e_cid e) (e_aid e) (e_pos e) (e_vel e) (e_acc e) (e_ori e) v (e_trq e) (e_cop e) (e_trqc e).
  Definition set_cop (v : vec3) (e : effst) : effst := Eff (e_act e) (e_cid e) (e_aid e) (e_pos e) (e_vel e) (e_acc e) (e_ori e) (e_frc e) (e_trq e) v (e_trqc e).
  Definition set_trq (v : vec3) (e : effst) : effst := Eff (e_act e) (e_cid e) (e_aid e) (e_pos e) (e_vel e) (e_acc e) (e_ori e) (e_frc e) v (e_cop e) (e_trqc e).
  Definition set_trqc (v : vec3) (e : effst) : effst := Eff (e_act e) (e_cid e) (e_aid e) (e_pos e) (e_vel e) (e_acc e) (e_ori e) (e_frc e) (e_trq e) (e_cop e) v.
  (** for (t=0..N-1) the state with number [off]+t gets f t. *)
  Definition store_loop (off : Z) (f : nat -> dstate -> dstate) (l : list dstate) : res (list dstate) :=
    foldM (fun l t => upd_state l (Z.of_nat t + off) (f t)) steps l.
  (** The columns of a force, cop or torque block are read at the activation number, which must exist. *)
  Definition guess_col (e : nat) (d : dstate) : res Z :=
    let k := e_aid (d_eff d e) in if ((0 <=? k) && (k <? act_steps q e))%Z then Ok k else UB.
  Definition store_eff_loop (e : nat) (f : Z -> effst -> effst) (l : list dstate) : res (list dstate) :=
    foldM (fun l t => bind (vget l (Z.of_nat t)) (fun d => if e_act (d_eff d e)
      then bind (guess_col e d) (fun k => vset l (Z.of_nat t) (set_eff d e (f k (d_eff d e)))) else Ok l)) steps l.
  (** l.670-673 *)
  Definition trq_contact (e : effst) : vec3 :=
    let fw := vscale (g_mg g) (e_frc e) in
    let fl := V3 (vdot (rotcol (e_ori e) 0) fw) (vdot (rotcol (e_ori e) 1) fw) (vdot (rotcol (e_ori e) 2) fw) in
    vadd (e_trq e) (vcross (e_cop e) fl).
  Definition storeSolution (am : nat -> vec3) (l0 : list dstate) : res (list dstate) :=
    bind (upd_state l0 0 (set_com (val3 bCOM 0))) (fun l =>
    bind (store_loop 1 (fun t => set_com (val3 bCOM (Z.of_nat t))) l) (fun l =>
    bind (store_loop 1 (fun t => set_lmom (val3 bLM (Z.of_nat t))) l) (fun l =>
    bind (store_loop 1 (fun t => set_amom (am t)) l) (fun l =>
    bind (if timeopt then
            bind (store_loop 0 (fun t => set_time (dt_val t)) l) (fun l =>
            bind (store_loop 0 (fun t => set_lmomd (val3 bLMD (Z.of_nat t))) l) (fun l =>
            store_loop 0 (fun t => set_amomd (val3 bAMD (Z.of_nat t))) l)) else Ok l) (fun l =>
    foldM (fun l e =>
      bind (store_eff_loop e (fun k => set_frc (val3 (bFRC e) k)) l) (fun l =>
      bind (store_eff_loop e (fun k => set_cop (V3 (val (bCOP e) 0 k) (val (bCOP e) 1 k) 0)) l) (fun l =>
      bind (store_eff_loop e (fun k => set_trq (V3 0 0 (val (bTRQ e) 0 k))) l) (fun l =>
      store_eff_loop e (fun k es => set_trqc (trq_contact es) es) l)))) effs l))))).
End Problem.

(** ** initialize, l.18-28: the sequence gets NumTimesteps states, each with the duration TimeStep (files and friction cone: see above). *)
Definition dyn_initialize (g : dset) (q : dseq) : dseq := Seq (map (set_time (g_dt g)) (states (dresize (g_N g) q))) (act_steps q).

(** ** optimize, l.64-91, and the end of internalOptimize, l.582-598 *)
Definition norm3 (n : nat) (a b : nat -> vec3) : R := sqrt (rsum n (fun t => let d := vsub (a t) (b t) in vdot d d)).
(** One call of internalOptimize that does not throw: the sequence is rewritten, the error and convergence flag computed.
    [solve] is the solver: the values of all columns for the problem it is given. *)
Record pass_out := Pass { po_seq : dseq; po_err : R; po_conv : bool; po_x : nat -> R; po_am : nat -> vec3 }.
Definition internalOptimize (g : dset) (ini : dstate) (cs : nat -> list contact) (kin : list kinref) (goal wtrack : vec3) (stray : nat -> nat -> option ctype)
    (solve : list call -> nat -> R) (first conv0 : bool) (last_err : R) (q : dseq) : res pass_out :=
  bind (problem_calls g q ini cs kin goal wtrack first stray) (fun calls =>
  let x := solve calls in
  let ang := angmom g q ini cs x in
  let own := fun t => val3 g q x bAM (Z.of_nat t) in
  let am := if is_timeopt (g_heur g) then own else ang in
  bind (storeSolution g q x am (states q)) (fun l =>
  if is_timeopt (g_heur g) then
    let n := INR (g_N g) in
    let com_err := norm3 (g_N g) (fun t => val3 g q x bCOM (Z.of_nat t)) (compos g q ini x) / n in
    let lmom_err := norm3 (g_N g) (fun t => val3 g q x bLM (Z.of_nat t)) (linmom g q ini x) / n in
    let amom_err := norm3 (g_N g) own ang / n in
    let err := Rmax com_err (Rmax lmom_err amom_err) in
    let conv1 := if Rlt_dec err (g_tol g) then true else false in
    (* in the first pass the previous error is infinite, l.587 *)
    let conv2 := if first then false else if Rlt_dec (Rabs (last_err - err)) (g_improve g) then true else false in
    let conv := conv0 || conv1 || conv2 in   (* has_converged_ is never reset between passes *)
    if conv then bind (storeSolution g (Seq l (act_steps q)) x ang l) (fun l' => Ok (Pass (Seq l' (act_steps q)) err conv x ang))
    else Ok (Pass (Seq l (act_steps q)) err conv x own)
  else Ok (Pass (Seq l (act_steps q)) last_err false x am))).

(** l.82-87: at most MaxNumTimeIterations further passes, until one has converged. *)
Fixpoint time_passes (fuel : nat) (pass : nat -> bool -> R -> dseq -> res pass_out) (it : nat) (o : pass_out) : res pass_out :=
  match fuel with
  | O => Ok o
  | S k => bind (pass it (po_conv o) (po_err o) (po_seq o)) (fun o' => if po_conv o' then Ok o' else time_passes k pass (S it) o')
  end.
Definition optimize (g : dset) (ini : dstate) (cs : nat -> list contact) (kin : list kinref) (com_motion : vec3) (wtrack : vec3)
    (stray : nat -> nat -> option ctype) (solve : nat -> list call -> nat -> R) (q0 : dseq) : res pass_out :=
  bind (fillDynamicsSequence (g_N g) (g_dt g) cs q0) (fun q =>
  let goal := vadd (d_com ini) com_motion in
  bind (internalOptimize g ini cs kin goal wtrack stray (solve 0%nat) true false 0 q) (fun o =>
  if is_timeopt (g_heur g)
  then time_passes (g_maxit g) (fun it conv err q => internalOptimize g ini cs kin goal wtrack stray (solve it) false conv err q) 1 o
  else Ok o)).
