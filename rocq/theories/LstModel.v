(** * Model of the settings of the LQR solver
    Sources: solver_lqr/src/solver_lqr/SolverLqrSetting.cpp, solver_lqr/include/solver_lqr/SolverLqrSetting.hpp l.19-66, SolverLqrParams.hpp.
    The members are a [store] of StgModel (a member that was never written is read as [UB]); files and typed nodes are those of StgModel, [Parsed y] with y the
    map named by stgs_vars_yaml (a map without entries if there is none).  Reals are exact; [UB] is also a coefficient that is infinite.
    Not modelled: user_parameters_ (a YAML node), overflow of id*id for more than 46340 coefficients. *)
From Coq Require Import String Reals List Arith ZArith Bool.
Import ListNotations.
From Verif Require Import Base StgTables StgModel LqrModel.
Local Open Scope string_scope.

(** SolverLqrParams.hpp l.17-88 *)
Inductive lqr_int := LI_Verbosity | LI_PrecisionDigits | LI_LqrMaxIterations | LI_BackPassRegularizationType | LI_TimeDimension | LI_StateDimension | LI_ControlDimension | LI_CurrentIteration | LI_BackpassDivergeIteration.
Inductive lqr_bool := LB_StoreData | LB_HasControlLimits | LB_UseRungeKuttaIntegration.
Inductive lqr_double := LD_CostChangeTolerance | LD_DivergenceLimitCheck | LD_ControlGradientTolerance | LD_BackPassMinRegularization | LD_BackPassMaxRegularization | LD_MinExpectedCostImprovement
  | LD_BackPassInitialRegularization | LD_BackPassMultRegularizationIncr | LD_BackPassInitialMultRegularizationIncr | LD_TimeStep | LD_TimeHorizon | LD_Cost | LD_CostChange | LD_ExpectedCost | LD_ControlGradient | LD_CurrentRegularization.
Inductive lqr_string := LS_ConfigFile | LS_SaveLqrFile.
Inductive lqr_vector := LV_LineSearchCoeffs | LV_InitialState | LV_MinControlLimits | LV_MaxControlLimits.
Inductive lqr_param := LPI (p : lqr_int) | LPB (p : lqr_bool) | LPD (p : lqr_double) | LPS (p : lqr_string) | LPV (p : lqr_vector).

(** The switches of get, SolverLqrSetting.cpp l.72-233: the same for the const and the other getters; None is the default branch *)
Definition lqr_field (p : lqr_param) : option string :=
  match p with
  | LPB LB_StoreData => Some "store_data_" | LPB LB_HasControlLimits => Some "has_control_limits_" | LPB LB_UseRungeKuttaIntegration => Some "use_runge_kutta_integration_"
  | LPI LI_Verbosity => Some "verbosity_" | LPI LI_LqrMaxIterations => Some "lqr_max_iters_" | LPI LI_PrecisionDigits => Some "precision_digits_"
  | LPI LI_BackPassRegularizationType => Some "bpass_regularization_type_"
  | LPI LI_TimeDimension => Some "time_dimension_" | LPI LI_StateDimension => Some "state_dimension_" | LPI LI_ControlDimension => Some "control_dimension_"
  | LPI _ => None
  | LPD LD_CostChangeTolerance => Some "cost_change_tolerance_" | LPD LD_DivergenceLimitCheck => Some "divergence_limit_check_"
  | LPD LD_BackPassMinRegularization => Some "bpass_min_regularization_" | LPD LD_BackPassMaxRegularization => Some "bpass_max_regularization_"
  | LPD LD_ControlGradientTolerance => Some "control_gradient_tolerance_" | LPD LD_MinExpectedCostImprovement => Some "min_expected_cost_improvement_"
  | LPD LD_BackPassInitialRegularization => Some "bpass_initial_regularization_" | LPD LD_BackPassMultRegularizationIncr => Some "bpass_mult_regularization_incr_"
  | LPD LD_BackPassInitialMultRegularizationIncr => Some "bpass_initial_mult_regularization_incr_" | LPD LD_TimeStep => Some "time_step_" | LPD LD_TimeHorizon => Some "time_horizon_"
  | LPD _ => None
  | LPS LS_ConfigFile => Some "cfg_file_" | LPS LS_SaveLqrFile => Some "save_lqr_file_"
  | LPV LV_LineSearchCoeffs => Some "alpha_" | LPV LV_InitialState => Some "initial_state_" | LPV LV_MinControlLimits => Some "min_control_limits_" | LPV LV_MaxControlLimits => Some "max_control_limits_"
  end.
(** get(p), and get(p) = v *)
Definition lqr_get (p : lqr_param) (s : store) : res sval := sread (lqr_field p) s.
Definition lqr_set (p : lqr_param) (v : sval) (s : store) : res store := swrite (lqr_field p) v s.
(** SolverLqrSetting(): the numbers start unwritten, SolverLqrSetting.hpp l.20, 43-63 *)
Definition lqr_new : store := fun f =>
  if existsb (String.eqb f) ["alpha_"; "initial_state_"; "min_control_limits_"; "max_control_limits_"] then Some (VV [])
  else if existsb (String.eqb f) ["cfg_file_"; "save_lqr_file_"] then Some (VS "") else None.

(** The statements of initialize: a member from an entry, the constant, the coefficients, the number of time steps, the limits. *)
Inductive lstep := LEntry (f k : string) (t : stype) | LRungeKutta | LCoeffs | LTimeDim | LLimits.
(** SolverLqrSetting.cpp l.26-63 *)
Definition lqr_steps : list lstep :=
  [LRungeKutta; LEntry "verbosity_" "verbosity" Tint; LEntry "lqr_max_iters_" "lqr_max_iters" Tint; LEntry "precision_digits_" "decimal_digits" Tint; LEntry "bpass_regularization_type_" "bpass_regularization_type" Tint;
   LEntry "cost_change_tolerance_" "cost_change_tolerance" Tdouble; LEntry "divergence_limit_check_" "divergence_limit_check" Tdouble; LEntry "bpass_min_regularization_" "bpass_min_regularization" Tdouble;
   LEntry "bpass_max_regularization_" "bpass_max_regularization" Tdouble; LEntry "control_gradient_tolerance_" "control_gradient_tolerance" Tdouble; LEntry "bpass_initial_regularization_" "bpass_initial_regularization" Tdouble;
   LEntry "min_expected_cost_improvement_" "min_expected_cost_improvement" Tdouble; LEntry "bpass_mult_regularization_incr_" "bpass_mult_regularization_incr" Tdouble;
   LEntry "bpass_initial_mult_regularization_incr_" "bpass_initial_mult_regularization_incr" Tdouble;
   LCoeffs; LEntry "store_data_" "store_data" Tbool;
   LEntry "time_step_" "time_step" Tdouble; LEntry "time_horizon_" "time_horizon" Tdouble; LEntry "state_dimension_" "state_dimension" Tint; LEntry "control_dimension_" "control_dimension" Tint;
   LEntry "initial_state_" "initial_state" Tvector; LTimeDim; LEntry "has_control_limits_" "has_control_limits" Tbool; LLimits].
(** One entry: a node that is missing or does not convert raises. *)
Definition lqr_entry (y : yaml) (f k : string) (t : stype) (s : store) : store * res unit :=
  match ylook y t k with Some v => (supd s f v, Ok tt) | None => (s, Throw) end.
Definition lqr_step (y : yaml) (c : lstep) (s : store) : store * res unit :=
  match c with
  | LEntry f k t => lqr_entry y f k t s
  | LRungeKutta => (supd s "use_runge_kutta_integration_" (VB false), Ok tt)
  | LCoeffs => (* l.42-46: the number is a double: the vector gets its integer part, the loop writes every id below it *)
      match y_double y "linesearch_coeff" with None => (s, Throw) | Some c =>
      match y_double y "linesearch_num_coeffs" with None => (s, Throw) | Some n =>
        let z := Int_part n in
        if Rlt_dec n 0 then (s, UB) else if Req_EM_T n (IZR z) then
          if (Req_EM_T c 0) then (if (z <=? 1)%Z then (supd s "alpha_" (VV (coefficients c (Z.to_nat z))), Ok tt) else (s, UB)) else (supd s "alpha_" (VV (coefficients c (Z.to_nat z))), Ok tt)
        else (s, UB)
      end end
  | LTimeDim => (* l.56: floor of the quotient, converted to int *)
      match s "time_horizon_", s "time_step_" with
      | Some (VD T), Some (VD dt) => if Req_EM_T dt 0 then (s, UB) else
          let z := Int_part (T / dt)%R in if ((-2147483648 <=? z) && (z <=? 2147483647))%Z%bool then (supd s "time_dimension_" (VI z), Ok tt) else (s, UB)
      | _, _ => (s, UB) end
  | LLimits => (* l.59-62 *)
      match s "has_control_limits_" with
      | Some (VB true) => let (s1, r) := lqr_entry y "min_control_limits_" "min_control_limits" Tvector s in match r with Ok _ => lqr_entry y "max_control_limits_" "max_control_limits" Tvector s1 | _ => (s1, r) end
      | Some (VB false) => (s, Ok tt)
      | _ => (s, UB) end
  end.
Fixpoint lqr_run (y : yaml) (l : list lstep) (s : store) : store * res unit :=
  match l with [] => (s, Ok tt) | c :: r => let (s', o) := lqr_step y c s in match o with Ok _ => lqr_run y r s' | _ => (s', o) end end.
(** cfg_file.substr(0, cfg_file.size()-5): the size is unsigned, so that a name shorter than five characters is kept *)
Definition without_extension (name : string) : string := substring 0 (if (String.length name <? 5)%nat then String.length name else String.length name - 5) name.
(** initialize, SolverLqrSetting.cpp l.15-70: a YAML::ParserException is printed and dropped, other exceptions are not caught *)
Definition lqr_initialize (name : string) (fl : yfile) (s : store) : store * res unit :=
  let s1 := supd (supd s "cfg_file_" (VS name)) "save_lqr_file_" (VS (without_extension name ++ "_lqr_results.yaml")) in
  match fl with NoFile => (s1, Throw) | NotYaml => (s1, Ok tt) | Parsed y => lqr_run y lqr_steps s1 end.
