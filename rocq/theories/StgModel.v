(** * Model of the setting classes
    Sources: solver/src/solver/interface/SolverSetting.cpp, momentumopt/src/momentumopt/setting/PlannerSetting.cpp, momentumopt/srcpy/momentumopt/setting/PySetting.cpp l.19-36.
    The members of an object are a map from their names; None is a member that was never written (reading it is [UB]).  The switch statements are the tables of StgTables.
    A YAML file is what its nodes convert to; a missing node and a failed conversion are None.  Values are exact. *)
From Coq Require Import Reals List Arith ZArith Bool String.
Import ListNotations.
From Verif Require Import Base StgTables.
Local Open Scope string_scope.

Inductive sval := VB (b : bool) | VI (z : Z) | VD (x : R) | VS (s : string) | VV (v : list R) | VIV (v : list Z) | VA (v : list (list R)) | VC (v : list (list R)).
Definition store := string -> option sval.
Definition supd (s : store) (f : string) (v : sval) : store := fun g => if String.eqb g f then Some v else s g.
(** The value of a member through a switch: the default branch throws. *)
Definition sread (f : option string) (s : store) : res sval :=
  match f with None => Throw | Some f => match s f with Some v => Ok v | None => UB end end.
Definition swrite (f : option string) (v : sval) (s : store) : res store :=
  match f with None => Throw | Some f => Ok (supd s f v) end.

(** ** SolverSetting *)
Inductive solver_param := SPB (p : SolverBoolParam) | SPI (p : SolverIntParam) | SPD (p : SolverDoubleParam).
Definition solver_get_field (p : solver_param) : option string :=
  match p with SPB p => solver_get_SolverBoolParam p | SPI p => solver_get_SolverIntParam p | SPD p => solver_get_SolverDoubleParam p end.
Definition solver_set_field (p : solver_param) : option string :=
  match p with SPB p => solver_set_SolverBoolParam p | SPI p => solver_set_SolverIntParam p | SPD p => solver_set_SolverDoubleParam p end.
(** get, set: SolverSetting.cpp l.80-239 *)
Definition solver_get (p : solver_param) (s : store) : res sval := sread (solver_get_field p) s.
Definition solver_set (p : solver_param) (v : sval) (s : store) : res store := swrite (solver_set_field p) v s.
Definition solver_new : store := fun _ => None.

(** What the nodes of a map convert to, for each type of as<>; via points node / via<i>. *)
Record yaml := Yml { y_bool : string -> option bool; y_int : string -> option Z; y_double : string -> option R; y_string : string -> option string; y_vector : string -> option (list R); y_ivector : string -> option (list Z); y_via : string -> nat -> option (list R) }.
Definition ylook (y : yaml) (t : stype) (k : string) : option sval :=
  match t with
  | Tbool => option_map VB (y_bool y k) | Tint => option_map VI (y_int y k) | Tdouble => option_map VD (y_double y k)
  | Tstring => option_map VS (y_string y k) | Tvector => option_map VV (y_vector y k) | Tivector => option_map VIV (y_ivector y k)
  end.
(** A file: not there, not YAML, or a map. *)
Inductive yfile := NoFile | NotYaml | Parsed (y : yaml).
(** initialize, SolverSetting.cpp l.18-75: assigns in order; a node that is missing or does not convert raises, which is not a ParserException. *)
Fixpoint sload (y : yaml) (l : list (string * string * stype)) (s : store) : store * bool :=
  match l with
  | [] => (s, true)
  | (f, k, t) :: r => match ylook y t k with Some v => sload y r (supd s f v) | None => (s, false) end
  end.
(** The store afterwards, and whether the call returns normally. *)
Definition solver_initialize (fl : yfile) (s : store) : store * res unit :=
  match fl with
  | NoFile => (s, Throw)
  | NotYaml => (s, Ok tt)
  | Parsed y => let (s', ok) := sload y solver_file s in (s', if ok then Ok tt else Throw)
  end.

(** ** PlannerSetting *)
Inductive planner_param := PPI (p : PlannerIntParam) | PPB (p : PlannerBoolParam) | PPD (p : PlannerDoubleParam) | PPS (p : PlannerStringParam)
  | PPIV (p : PlannerIntVectorParam) | PPV (p : PlannerVectorParam) | PPA (p : PlannerArrayParam) | PPC (p : PlannerCVectorParam).
(** The const getters and the getters that return a reference. *)
Definition planner_read_field (p : planner_param) : option string :=
  match p with
  | PPI p => planner_read_PlannerIntParam p | PPB p => planner_read_PlannerBoolParam p | PPD p => planner_read_PlannerDoubleParam p | PPS p => planner_read_PlannerStringParam p
  | PPIV p => planner_read_PlannerIntVectorParam p | PPV p => planner_read_PlannerVectorParam p | PPA p => planner_read_PlannerArrayParam p | PPC p => planner_read_PlannerCVectorParam p
  end.
Definition planner_write_field (p : planner_param) : option string :=
  match p with
  | PPI p => planner_write_PlannerIntParam p | PPB p => planner_write_PlannerBoolParam p | PPD p => planner_write_PlannerDoubleParam p | PPS p => planner_write_PlannerStringParam p
  | PPIV p => planner_write_PlannerIntVectorParam p | PPV p => planner_write_PlannerVectorParam p | PPA p => planner_write_PlannerArrayParam p | PPC p => planner_write_PlannerCVectorParam p
  end.
(** get(p) of a const object, and get(p) = v (PySetting.cpp l.19-36).  Sizes of assigned vectors are not modelled. *)
Definition planner_get (p : planner_param) (s : store) : res sval := sread (planner_read_field p) s.
Definition planner_set (p : planner_param) (v : sval) (s : store) : res store := swrite (planner_write_field p) v s.
(** Members of the types int, bool, double and of fixed size Eigen vectors start unwritten; strings, dynamic vectors and containers start empty. *)
Definition dyn_vectors : list string := ["default_joint_positions_"; "w_kin_default_joints_"; "w_kin_joint_vel_"; "w_kin_joint_acc_"; "min_joint_limits_"; "max_joint_limits_"; "p_mom_tracking_second_"].
Definition in_list (f : string) (l : list string) : bool := existsb (String.eqb f) l.
Definition planner_new : store := fun f =>
  if in_list f ["cfg_file_"; "save_dynamics_file_"; "save_kinematics_file_"; "default_solver_setting_file_"] then Some (VS "")
  else if in_list f dyn_vectors then Some (VV [])
  else if in_list f ["active_dofs_"; "extended_active_dofs_"] then Some (VIV [])
  else if in_list f ["com_viapoints_"; "joint_viapoints_"; "joint_viapoints_second_"; "base_viapoints_"; "base_viapoints_second_"] then Some (VC [])
  else if in_list f ["cop_range_"; "eff_offset_"] then Some (VA [[]; []; []; []])
  else None.
(** The conditions around the steps, l.44, l.87, l.101, l.129, l.134, l.155, l.174. *)
Definition is_true_member (s : store) (f : string) : bool := match s f with Some (VB true) => true | _ => false end.
Definition is_timeopt (s : store) : bool := match s "heuristic_" with Some (VS h) => String.eqb h "TimeOptimization" | _ => false end.
Definition guard_on (g : sguard) (s : store) : bool :=
  match g with
  | Always => true
  | Kin => is_true_member s "load_kinematics_"
  | TimeOpt => is_timeopt s
  | Second => is_true_member s "load_kinematics_" && is_true_member s "use_second_order_inv_kin_"
  | First => is_true_member s "load_kinematics_" && negb (is_true_member s "use_second_order_inv_kin_")
  end.
(** The via points l.60-64, l.205-223: the vector is emptied, then one entry per via point is read. *)
Fixpoint vias (y : yaml) (node : string) (n k : nat) : option (list (list R)) :=
  match n with
  | O => Some []
  | S m => match y_via y node k with Some v => option_map (cons v) (vias y node m (S k)) | None => None end
  end.
(** Problem::idToEndeffectorString, Definitions.hpp l.40-48 *)
Definition eff_names : list string := ["rf"; "lf"; "rh"; "lh"].
Fixpoint read_effs (y : yaml) (prefix : string) (l : list string) : option (list (list R)) :=
  match l with [] => Some [] | e :: r => match y_vector y (prefix ++ e), read_effs y prefix r with Some v, Some w => Some (v :: w) | _, _ => None end end.
(** A read that fails in the middle of a vector of via points or of the end-effectors leaves the members written so far; this is only kept for whole members here (simplification: no theorem reads such a member after a failure). *)
Definition pstep (y : yaml) (st : sstep) (s : store) : store * bool :=
  match st with
  | Read g t k f => if guard_on g s then match ylook y t k with Some v => (supd s f v, true) | None => (s, false) end else (s, true)
  | ReadVias g num node f =>
      if guard_on g s then
        match s num with
        | Some (VI n) => match vias y node (Z.to_nat n) 0 with Some l => (supd s f (VC l), true) | None => (supd s f (VC []), false) end
        | _ => (s, false)
        end
      else (s, true)
  | ReadEff prefix f => match read_effs y prefix eff_names with Some l => (supd s f (VA l), true) | None => (s, false) end
  | ExtendedDofs => (* l.54-56 *)
      if guard_on Kin s then
        match s "active_dofs_" with Some (VIV a) => (supd s "extended_active_dofs_" (VIV ([0; 1; 2; 3; 4; 5]%Z ++ map (Z.add 6) a)), true) | _ => (s, false) end
      else (s, true)
  | ReadHeuristic => (* l.72-75; unknown names select SoftConstraint *)
      match y_string y "heuristic" with
      | Some h => (supd s "heuristic_" (VS (if String.eqb h "TrustRegion" then "TrustRegion" else if String.eqb h "SoftConstraint" then "SoftConstraint" else if String.eqb h "TimeOptimization" then "TimeOptimization" else "SoftConstraint")), true)
      | None => (s, false)
      end
  | ReadFriction => (* l.106 *)
      match y_string y "friction_cone" with Some h => (supd s "is_friction_cone_linear_" (VB (String.eqb h "LinearCone")), true) | None => (s, false) end
  end.
Fixpoint prun (y : yaml) (l : list sstep) (s : store) : store * bool :=
  match l with [] => (s, true) | st :: r => let (s', ok) := pstep y st s in if ok then prun y r s' else (s', false) end.
(** Derived members, l.231-235.  floor(time_horizon/time_step) is converted to int: undefined for a zero step and outside the range of int, the member is then unwritten. *)
Definition getd (s : store) (f : string) : R := match s f with Some (VD x) => x | _ => 0%R end.
Definition getiv (s : store) (f : string) : list Z := match s f with Some (VIV v) => v | _ => [] end.
Definition to_int (x : R) : option Z := let z := Int_part x in if ((- 2147483648 <=? z) && (z <=? 2147483647))%Z then Some z else None.
Definition set_opt (s : store) (f : string) (v : option sval) : store := fun g => if String.eqb g f then v else s g.
Definition pderive (s : store) : store :=
  let s1 := supd s "num_act_dofs_" (VI (Z.of_nat (List.length (getiv s "active_dofs_")))) in
  let s2 := supd s1 "mass_times_gravity_" (VD (getd s1 "robot_mass_" * getd s1 "gravity_")) in
  let s3 := supd s2 "gravity_vector_" (VV [0%R; 0%R; (- getd s2 "gravity_")%R]) in
  let s4 := set_opt s3 "num_timesteps_" (if Req_EM_T (getd s3 "time_step_") 0 then None else option_map VI (to_int (getd s3 "time_horizon_" / getd s3 "time_step_"))) in
  supd s4 "num_extended_act_dofs_" (VI (Z.of_nat (List.length (getiv s4 "extended_active_dofs_")))).
(** initialize, l.16-246: every std::runtime_error is caught and printed, the call returns normally.  substr of a name shorter than five characters raises out_of_range before the try block only if the
    position is beyond the end, which it is not: cfg_file.size()-5 wraps around and the whole name is kept. *)
Definition kin_file (name : string) : string := (if (5 <=? String.length name)%nat then substring 0 (String.length name - 5) name else name) ++ "_kin_results.yaml".
Definition planner_initialize (name cfg_path : string) (fl : yfile) (s : store) : store :=
  let s0 := supd (supd (supd s "cfg_file_" (VS name)) "save_kinematics_file_" (VS (kin_file name))) "default_solver_setting_file_" (VS (cfg_path ++ "default_solver_setting.yaml")) in
  match fl with
  | NoFile | NotYaml => s0
  | Parsed y => let (s', ok) := prun y planner_file s0 in if ok then pderive s' else s'
  end.
(** heuristic(), PlannerSetting.hpp *)
Definition planner_heuristic (s : store) : res sval := sread (Some "heuristic_") s.
