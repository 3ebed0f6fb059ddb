(** * Model of the kinematics optimizer
    Sources: momentumopt/src/momentumopt/kinopt/KinematicsOptimizer.cpp, KinematicsState.hpp.
    Reals are exact.  As in DynModel the planner is the list of calls it makes to the modelling layer (ExprsModel, ConicModel).
    The robot specific KinematicsInterface (implemented by the user, e.g. PinocchioKinematicsInterface.py) is a parameter: every
    quantity it computes is a function of the state it was last given.
    Simplifications: vectors of weights, limits and default positions are total functions (their length is not checked);
    reads of ActiveDofs are in range by construction (l.53-56 of PlannerSetting.cpp build ExtendedActiveDofs out of it).
    Not modelled: display, yaml output, timing. *)
From Coq Require Import Reals List Arith ZArith Bool String Ascii.
Import ListNotations.
From Verif Require Import Base Vec3 ExprsModel ConicModel OptVarModel CntModel DynModel.
Local Open Scope R_scope.

(** ** KinematicsState.hpp l.21-213: base pose, joints, generalised velocities and accelerations, com, momenta, end-effectors. *)
Record kstate := KS {
  ks_base : vec3; ks_ori : quat; ks_jnt : nat -> R; ks_vel : nat -> R; ks_acc : nat -> R;
  ks_com : vec3; ks_lmom : vec3; ks_amom : vec3; ks_eff : nat -> vec3 }.
(** KinematicsState.cpp l.45-70 *)
Definition ks_new : kstate := KS v0 qone (fun _ => 0) (fun _ => 0) (fun _ => 0) v0 v0 v0 (fun _ => v0).
Definition set_vel (f : nat -> R) (s : kstate) : kstate := KS (ks_base s) (ks_ori s) (ks_jnt s) f (ks_acc s) (ks_com s) (ks_lmom s) (ks_amom s) (ks_eff s).
Definition set_acc (f : nat -> R) (s : kstate) : kstate := KS (ks_base s) (ks_ori s) (ks_jnt s) (ks_vel s) f (ks_com s) (ks_lmom s) (ks_amom s) (ks_eff s).
Definition set_jnt (f : nat -> R) (s : kstate) : kstate := KS (ks_base s) (ks_ori s) f (ks_vel s) (ks_acc s) (ks_com s) (ks_lmom s) (ks_amom s) (ks_eff s).

(** ** KinematicsInterface.hpp l.34-65 *)
Record robot := Robot {
  rb_update : kstate -> R -> kstate;               (* updateJacobiansAndState: the returned state *)
  rb_jcom : kstate -> nat -> nat -> R;             (* centerOfMassJacobian()(axis, dof) after updating with this state *)
  rb_ag : kstate -> nat -> nat -> R;               (* centroidalMomentumMatrix()(row, dof) *)
  rb_dag : kstate -> nat -> nat -> R;              (* centroidalMomentumMatrixVariation()(row, dof) *)
  rb_jeff : kstate -> nat -> nat -> nat -> R;      (* endeffectorJacobian(eff)(axis, dof) *)
  rb_cmat : kstate -> nat -> nat -> R;             (* constraintsMatrix()(row, dof) *)
  rb_cvec : kstate -> nat -> R;                    (* constraintsVector()[row] *)
  rb_ncon : nat;                                   (* constraintsVector().size() *)
  rb_integrate : kstate -> R -> kstate;            (* integratePosture *)
  rb_diff : kstate -> kstate -> R -> kstate;       (* differentiatePostures *)
  rb_log : quat -> vec3 }.                         (* logarithmicMap, KinematicsOptimizer.cpp l.576-579 *)

(** ** Settings read by the optimizer *)
Record kset := KSet {
  k_N : nat; k_neff : nat; k_act : list nat; k_step : R; k_floor : R; k_inf : R; k_qdef : nat -> R; k_min : nat -> R; k_max : nat -> R;
  k_iters : nat; k_conv : nat; k_tol : R; k_lambda : R; k_slackw : R;
  kw_com : vec3; kw_lmom : vec3; kw_amom : vec3; kw_lmomd : vec3; kw_amomd : vec3; kw_eff : vec3; kw_neff : vec3;
  kw_def : nat -> R; kw_vel : nat -> R; kw_acc : nat -> R }.
(** PlannerSetting.cpp l.53-56, 221-225 *)
Definition k_nact (g : kset) : nat := List.length (k_act g).
Definition k_next (g : kset) : nat := (k_nact g + 6)%nat.
Definition k_dof (g : kset) (d : nat) : nat := nth d (k_act g) 0%nat.
Definition k_ext (g : kset) (d : nat) : nat := if (d <? 6)%nat then d else (6 + k_dof g (d - 6))%nat.

(** ** Variables: blocks numbered in the order of initialisation, added to the model in the order [ord] (l.88-112, l.314-334). *)
Section Vars.
  Variables (bs : list blockspec) (ord : list nat).
  Definition k_ovs : list optvar := fst (init_blocks bs 0).
  (** The array vars_ after addVariableToModel for all blocks (model_.clean() first, so the previous problem is irrelevant). *)
  Definition k_vars : res mstate := let '(ovs, nv) := init_blocks bs 0 in add_all false ovs nv ord cp_init.
  (** The column of vars_[block.id(r,c)] (an empty Var has none; theorem C44_variables_are_declared: this does not happen). *)
  Definition k_col (b r c : nat) : nat :=
    match k_vars with
    | Ok (_, vars) => match nth_error vars (Z.to_nat (ov_id (nth b k_ovs ov_none) (Z.of_nat r) (Z.of_nat c))) with Some (Some j) => j | _ => 0%nat end
    | _ => 0%nat
    end.
  Definition kv (b r c : nat) : linexpr := le_of_var (k_col b r c) 1.
  (** The addVar calls in order. *)
  Definition k_var_calls : list call :=
    flat_map (fun k => let b := nth k bs (mkB "C"%char 0 0 (fun _ _ => 0) (fun _ _ => 0) (fun _ _ => 0)) in
      map (fun rc => CAddVar Continuous (b_lb b (fst rc) (snd rc)) (b_ub b (fst rc) (snd rc)) (b_guess b (fst rc) (snd rc)))
          (flat_map (fun c => map (fun r => (r, c)) (zseq (Z.of_nat (b_rows b)))) (zseq (Z.of_nat (b_cols b))))) ord.
End Vars.
(** lin_cons_ = l0; for (d=0..n-1) lin_cons_ += coeff(d)*var(d); *)
Definition k_acc_loop (n : nat) (coeff : nat -> R) (col : nat -> nat) (l0 : linexpr) : linexpr :=
  fold_left (fun l d => le_add l (le_of_var (col d) (coeff d))) (seq 0 n) l0.

(** ** optimizeTrajectory, l.88-282 *)
Section Trajectory.
  Variables (g : kset) (rob : robot).
  (** the momentum plan: initial state (l.88 argument) and sequence *)
  Variables (dini : dstate) (dyn : nat -> dstate).
  (** the kinematic initial state (ini_state_) and the sequence before this iteration *)
  Variables (kini : kstate) (seqk : nat -> kstate).
  Let bs := kin_blocks (k_inf g) (k_N g) (k_neff g) (k_next g).
  Let ord := kin_order (k_neff g).
  Let v := kv bs ord.
  Let col := k_col bs ord.
  Definition kCOM : nat := 0. Definition kLM : nat := 1. Definition kAM : nat := 2.
  Definition kEP (e : nat) : nat := (3 + 2 * e)%nat. Definition kEV (e : nat) : nat := (3 + (2 * e + 1))%nat.
  Definition kQ : nat := (3 + 2 * k_neff g)%nat. Definition kQD : nat := (3 + 2 * k_neff g + 1)%nat.
  Definition kTQD : nat := (3 + 2 * k_neff g + 2)%nat. Definition kTQDD : nat := (3 + 2 * k_neff g + 3)%nat.
  Definition kdt (t : nat) : R := d_time (dyn t).
  Definition kc (a : R) : linexpr := le_of_const a.
  Definition k_steps : list nat := seq 0 (k_N g).
  Definition k_effs : list nat := seq 0 (k_neff g).
  Definition k_dofs : list nat := seq 0 (k_next g).

  (** l.124-159 *)
  Definition k_track_terms (t i : nat) : list (R * linexpr) :=
    let d := dyn t in
    [(vget3 (kw_com g) i, le_sub (kc (vget3 (d_com d) i)) (v kCOM i t));
     (vget3 (kw_lmom g) i, le_sub (kc (vget3 (d_lmom d) i)) (v kLM i t));
     (vget3 (kw_amom g) i, le_sub (kc (vget3 (d_amom d) i)) (v kAM i t))]
    ++ (match t with
        | O => [(vget3 (kw_lmomd g) i, le_div (le_sub (v kLM i t) (kc (vget3 (d_lmom dini) i))) (kdt t));
                (vget3 (kw_amomd g) i, le_div (le_sub (v kAM i t) (kc (vget3 (d_amom dini) i))) (kdt t))]
        | S t' => [(vget3 (kw_lmomd g) i, le_div (le_sub (v kLM i t) (v kLM i t')) (kdt t));
                   (vget3 (kw_amomd g) i, le_div (le_sub (v kAM i t) (v kAM i t')) (kdt t))]
        end)
    ++ map (fun e => (vget3 (if e_act (d_eff d e) then kw_eff g else kw_neff g) i, le_sub (kc (vget3 (e_pos (d_eff d e)) i)) (v (kEP e) i t))) k_effs.
  Definition k_obj_terms : list (R * linexpr) :=
    flat_map (fun t =>
      flat_map (k_track_terms t) axes
      ++ map (fun d => (kw_def g d, le_sub (kc (k_qdef g d)) (v kQ (6 + d) t))) (seq 0 (k_nact g))
      ++ flat_map (fun d => [(kw_vel g d, v kTQD d t); (kw_acc g d, v kTQDD d t)]) k_dofs) k_steps.

  (** l.169: the state of step t with updated com and end-effectors; the Jacobians are those of the state passed in. *)
  Definition kcur (t : nat) : kstate := rb_update rob (seqk t) (k_step g).
  (** l.171-197 *)
  Definition k_axis_calls (t i : nat) : list call :=
    let n := k_next g in
    [CAddLin (k_acc_loop n (fun d => k_step g * rb_jcom rob (seqk t) i (k_ext g d)) (fun d => col kQD d t)
                (le_addc (le_of_var (col kCOM i t) (-1)) (vget3 (ks_com (kcur t)) i))) "=" (kc 0);
     CAddLin (k_acc_loop n (fun d => rb_ag rob (seqk t) i (k_ext g d)) (fun d => col kTQD d t) (le_of_var (col kLM i t) (-1))) "=" (kc 0);
     CAddLin (k_acc_loop n (fun d => rb_ag rob (seqk t) (3 + i)%nat (k_ext g d)) (fun d => col kTQD d t) (le_of_var (col kAM i t) (-1))) "=" (kc 0)]
    ++ flat_map (fun e =>
         [CAddLin (le_sub (le_sub (v (kEP e) i t) (kc (vget3 (ks_eff (kcur t) e) i))) (le_of_var (col (kEV e) i t) (k_step g))) "=" (kc 0);
          CAddLin (k_acc_loop n (fun d => rb_jeff rob (seqk t) e i (k_ext g d)) (fun d => col kQD d t) (le_of_var (col (kEV e) i t) (-1))) "=" (kc 0)]) k_effs.
  (** l.199-201 *)
  Definition k_floor_calls (t : nat) : list call := map (fun e => CAddLin (v (kEP e) 2 t) ">" (kc (k_floor g))) k_effs.
  (** l.204-208, 214-219: coordinate d of a posture: base position, rotation vector of the base orientation, joint. *)
  Definition k_coord (lo : vec3) (s : kstate) (d : nat) : R :=
    if (d <? 3)%nat then vget3 (ks_base s) d else if (d <? 6)%nat then vget3 lo (d - 3) else ks_jnt s (k_dof g (d - 6)).
  (** l.116-119 *)
  Definition k_logori (t : nat) : vec3 := rb_log rob (ks_ori (seqk t)).
  Definition k_inilog : vec3 := rb_log rob (ks_ori kini).
  (** l.203-211 *)
  Definition k_posture_calls (t : nat) : list call :=
    map (fun d => CAddLin (le_sub (v kQ d t) (le_add (kc (k_coord (k_logori t) (kcur t) d)) (le_of_var (col kQD d t) (k_step g)))) "=" (kc 0)) k_dofs.
  (** l.213-224 *)
  Definition k_vel_calls (t : nat) : list call :=
    map (fun d => CAddLin (le_sub (v kTQD d t)
      (le_div (le_sub (v kQ d t) (match t with O => kc (k_coord k_inilog kini d) | S t' => v kQ d t' end)) (kdt t))) "=" (kc 0)) k_dofs.
  (** l.226-231 *)
  Definition k_acc_calls (t : nat) : list call :=
    map (fun d => CAddLin (le_sub (v kTQDD d t)
      (match t with O => le_of_var (col kTQD d t) (1 / kdt t) | S t' => le_div (le_sub (v kTQD d t) (v kTQD d t')) (kdt t) end)) "=" (kc 0)) k_dofs.
  (** l.233-237 *)
  Definition k_limit_calls (t : nat) : list call :=
    flat_map (fun d => [CAddLin (v kQ (6 + d) t) ">" (kc (k_min g (k_dof g d))); CAddLin (v kQ (6 + d) t) "<" (kc (k_max g (k_dof g d)))]) (seq 0 (k_nact g)).
  (** l.167-238 *)
  Definition k_constraints : list call :=
    flat_map (fun t => flat_map (k_axis_calls t) axes ++ k_floor_calls t ++ k_posture_calls t ++ k_vel_calls t ++ k_acc_calls t ++ k_limit_calls t) k_steps.
  Definition traj_calls : list call := k_var_calls bs ord ++ CSetObj (q_of k_obj_terms) (kc 0) :: k_constraints.

  (** l.261-271: one step of storing; [prev] is the already stored state of the previous step (ini_state_ for the first). *)
  Variable x : nat -> R.
  Definition set_head (n : nat) (f old : nat -> R) (d : nat) : R := if (d <? n)%nat then f d else old d.
  Definition k_store (prev : kstate) (t : nat) : kstate :=
    let s1 := set_vel (set_head (k_next g) (fun d => x (col kQD d t)) (ks_vel (seqk t))) (seqk t) in
    let s2 := rb_integrate rob s1 (k_step g) in
    let s3 := rb_diff rob prev s2 (kdt t) in
    set_acc (set_head (k_next g) (fun d => x (col kTQDD d t)) (ks_acc s3)) s3.
  Fixpoint k_stored (t : nat) : kstate := k_store (match t with O => kini | S t' => k_stored t' end) t.
  (** The sequence after the iteration. *)
  Definition k_after (t : nat) : kstate := if (t <? k_N g)%nat then k_stored t else seqk t.
End Trajectory.
(** l.88-282: [solve] is the solver (None: it threw and catch(...) swallowed it, the sequence stays). *)
Fixpoint optimizeTrajectory (g : kset) (rob : robot) (dini : dstate) (dyn : nat -> dstate) (kini : kstate) (solve : list call -> option (nat -> R)) (iters : nat) (seqk : nat -> kstate) : nat -> kstate :=
  match iters with
  | O => seqk
  | S n => optimizeTrajectory g rob dini dyn kini solve n
             (match solve (traj_calls g rob dini dyn kini seqk) with Some x => k_after g rob dyn kini seqk x | None => seqk end)
  end.

(** ** optimizePosture, l.296-472 *)
Definition post_blocks (g : kset) (ncon : nat) : list blockspec :=
  [free_block 3 1 (k_inf g); free_block 3 1 (k_inf g); free_block ncon 1 (k_inf g); free_block (k_nact g) 1 (k_inf g);
   free_block (k_next g) 1 (k_inf g); free_block (k_next g) 1 (k_inf g); free_block (k_next g) 1 (k_inf g)].
Definition post_order : list nat := [0; 1; 3; 4; 5; 6; 2]%nat.
Section Posture.
  Variables (g : kset) (rob : robot).
  (** the current state before updateJacobiansAndState (which the Jacobians refer to) and the desired dynamic state *)
  Variables (s0 : kstate) (des : dstate).
  Let bs := post_blocks g (rb_ncon rob).
  Let v := fun b r => kv bs post_order b r 0.
  Let col := fun b r => k_col bs post_order b r 0.
  Definition cur : kstate := rb_update rob s0 (k_step g).                                    (* l.303 *)
  (** l.304-308 *)
  Definition des_com : vec3 := vscale (/ k_step g) (vsub (d_com des) (ks_com cur)).
  Definition des_lmom : vec3 := vscale (/ k_step g) (vsub (d_lmom des) (ks_lmom cur)).
  Definition des_amom : vec3 := vscale (/ k_step g) (vsub (d_amom des) (ks_amom cur)).
  Definition des_eff (e : nat) : vec3 := vscale (/ k_step g) (vsub (e_pos (d_eff des e)) (ks_eff cur e)).
  Definition bSLACK : nat := 2. Definition bQ : nat := 3. Definition bQD : nat := 4. Definition bQDD : nat := 5. Definition bTQD : nat := 6.
  (** l.345-349; here the Jacobians are indexed by the variable number jnt_id, not by ExtendedActiveDofs. *)
  Definition p_com_term (i : nat) : R * linexpr :=
    (vget3 (kw_com g) i, k_acc_loop (k_next g) (fun d => rb_jcom rob s0 i d) (fun d => col bQD d) (le_of_const (- vget3 des_com i))).
  (** l.351-363 *)
  Definition p_mom_term (w dv : vec3) (row i : nat) : R * linexpr :=
    (vget3 w i, fold_left (fun l d => le_add l (le_add (le_of_var (col bQDD d) (rb_ag rob s0 row d)) (le_of_var (col bTQD d) (rb_dag rob s0 row d)))) (seq 0 (k_next g)) (le_of_const (- vget3 dv i))).
  (** l.365-375 *)
  Definition p_eff_term (i e : nat) : R * linexpr :=
    (vget3 (if e_act (d_eff des e) then kw_eff g else kw_neff g) i, k_acc_loop (k_next g) (fun d => rb_jeff rob s0 e i d) (fun d => col bQD d) (le_of_const (- vget3 (des_eff e) i))).
  (** l.378-393 *)
  Definition p_obj_terms : list (R * linexpr) :=
    flat_map (fun i => [p_com_term i; p_mom_term (kw_lmom g) des_lmom i i; p_mom_term (kw_amom g) des_amom (3 + i) i] ++ map (p_eff_term i) (seq 0 (k_neff g))) axes
    ++ flat_map (fun d => [(k_lambda g, v bQD d); (k_lambda g, v bQDD d)]) (seq 0 (k_next g))
    ++ map (fun c => (k_slackw g, v bSLACK c)) (seq 0 (rb_ncon rob))
    ++ map (fun d => (kw_def g d, le_sub (v bQ d) (le_of_const (k_qdef g d)))) (seq 0 (k_nact g)).
  (** l.399-403: the integration of velocities is computed but the call that adds it is commented out; l.405-420 *)
  Definition p_constraints : list call :=
    flat_map (fun c => [CAddLin (v bSLACK c) ">" (le_of_const 0);
       CAddLin (k_acc_loop (k_next g) (fun d => rb_cmat rob s0 c d) (fun d => col bQD d) (le_of_const (- rb_cvec rob s0 c))) "<" (v bSLACK c)]) (seq 0 (rb_ncon rob))
    ++ flat_map (fun d => [CAddLin (le_add (le_addc (le_of_var (col bQ d) (-1)) (ks_jnt cur d)) (le_of_var (col bQD (6 + d)) (k_step g))) "=" (le_of_const 0);
       CAddLin (v bQ d) ">" (le_of_const (k_min g d)); CAddLin (v bQ d) "<" (le_of_const (k_max g d))]) (seq 0 (k_nact g)).
  Definition post_calls : list call := k_var_calls bs post_order ++ CSetObj (q_of p_obj_terms) (le_of_const 0) :: p_constraints.
  (** l.310-312 *)
  Definition vnorm (a : vec3) : R := sqrt (vdot a a).
  Definition post_error : R :=
    fold_left (fun a e => a + vnorm (des_eff e)) (seq 0 (k_neff g)) (vnorm des_com + vnorm des_amom + vnorm des_lmom).
  (** l.437-442 *)
  Variable start : kstate.
  Definition post_store (x : nat -> R) : kstate :=
    let s1 := set_vel (set_head (k_next g) (fun d => x (col bQD d)) (ks_vel cur)) cur in
    rb_diff rob start (rb_integrate rob s1 (k_step g)) (d_time des).
End Posture.
(** l.301-463; [prev] is prev_error (None: inf before the first iteration; |inf - e| is not below the tolerance). *)
Fixpoint post_loop (g : kset) (rob : robot) (des : dstate) (start : kstate) (solve : list call -> option (nat -> R)) (iters : nat) (prev : option R) (s : kstate) : kstate :=
  match iters with
  | O => s
  | S n =>
      let e := post_error g rob s des in
      let stop := (if Rlt_dec e (k_tol g) then true else false) || match prev with Some p => if Rlt_dec (Rabs (p - e)) (k_tol g) then true else false | None => false end in
      if stop then cur g rob s
      else post_loop g rob des start solve n (Some e)
             (match solve (post_calls g rob s des) with Some x => post_store g rob s des start x | None => cur g rob s end)
  end.
(** l.465-471 *)
Definition optimizePosture (g : kset) (rob : robot) (solve : list call -> option (nat -> R)) (s : kstate) (des : dstate) (is_initial : bool) : kstate :=
  let r := post_loop g rob des s solve (k_conv g) None s in
  if is_initial then KS (ks_base r) (ks_ori r) (ks_jnt r) (fun _ => 0) (fun _ => 0) (ks_com r) (d_lmom des) (d_amom des) (ks_eff r) else r.

(** ** optimize, l.40-65 (end-effector references already updated in [dyn]; without display and yaml output).
    The result is the initial state and the sequence. *)
Definition kin_optimize (g : kset) (rob : robot) (solve : list call -> option (nat -> R)) (dini : dstate) (dyn : nat -> dstate) (first : bool) (seqk : nat -> kstate) : kstate * (nat -> kstate) :=
  let ini := optimizePosture g rob solve (set_jnt (k_qdef g) ks_new) dini true in
  let chain := fix chain (t : nat) : kstate := optimizePosture g rob solve (match t with O => ini | S t' => chain t' end) (dyn t) false in
  let seq1 := if first then (fun t => if (t <? k_N g)%nat then chain t else seqk t) else seqk in
  (ini, optimizeTrajectory g rob dini dyn ini solve (k_iters g) seq1).
