(** * Specification of the settings of the LQR solver (C95): which entry of the file each parameter is *)
From Coq Require Import String Reals List ZArith Bool.
Import ListNotations.
From Verif Require Import StgTables StgModel LstModel.
Local Open Scope string_scope.

(** The entries: name in the file and type. *)
Definition lqr_doc (p : lqr_param) : option (string * stype) :=
  match p with
  | LPI LI_Verbosity => Some ("verbosity", Tint) | LPI LI_PrecisionDigits => Some ("decimal_digits", Tint) | LPI LI_LqrMaxIterations => Some ("lqr_max_iters", Tint)
  | LPI LI_BackPassRegularizationType => Some ("bpass_regularization_type", Tint) | LPI LI_StateDimension => Some ("state_dimension", Tint) | LPI LI_ControlDimension => Some ("control_dimension", Tint)
  | LPB LB_StoreData => Some ("store_data", Tbool) | LPB LB_HasControlLimits => Some ("has_control_limits", Tbool)
  | LPD LD_CostChangeTolerance => Some ("cost_change_tolerance", Tdouble) | LPD LD_DivergenceLimitCheck => Some ("divergence_limit_check", Tdouble)
  | LPD LD_ControlGradientTolerance => Some ("control_gradient_tolerance", Tdouble) | LPD LD_BackPassMinRegularization => Some ("bpass_min_regularization", Tdouble)
  | LPD LD_BackPassMaxRegularization => Some ("bpass_max_regularization", Tdouble) | LPD LD_MinExpectedCostImprovement => Some ("min_expected_cost_improvement", Tdouble)
  | LPD LD_BackPassInitialRegularization => Some ("bpass_initial_regularization", Tdouble) | LPD LD_BackPassMultRegularizationIncr => Some ("bpass_mult_regularization_incr", Tdouble)
  | LPD LD_BackPassInitialMultRegularizationIncr => Some ("bpass_initial_mult_regularization_incr", Tdouble) | LPD LD_TimeStep => Some ("time_step", Tdouble) | LPD LD_TimeHorizon => Some ("time_horizon", Tdouble)
  | LPV LV_InitialState => Some ("initial_state", Tvector)
  | _ => None
  end.
(** Results of a run are not settings. *)
Definition lqr_is_result (p : lqr_param) : bool :=
  match p with LPI LI_CurrentIteration | LPI LI_BackpassDivergeIteration | LPD LD_Cost | LPD LD_CostChange | LPD LD_ExpectedCost | LPD LD_ControlGradient | LPD LD_CurrentRegularization => true | _ => false end.
(** Every entry is there, and the limits of the controls if the file says that there are some. *)
Definition lqr_entries (y : yaml) : Prop :=
  (forall p k t, lqr_doc p = Some (k, t) -> ylook y t k <> None) /\ y_double y "linesearch_coeff" <> None /\ y_double y "linesearch_num_coeffs" <> None /\
  (y_bool y "has_control_limits" = Some true -> y_vector y "min_control_limits" <> None /\ y_vector y "max_control_limits" <> None).
(** The numbers make sense: n coefficients, a base and a time step other than zero, a number of time steps that an int holds. *)
Definition lqr_sensible (y : yaml) (c : R) (n : nat) (dt T : R) : Prop :=
  y_double y "linesearch_coeff" = Some c /\ y_double y "linesearch_num_coeffs" = Some (INR n) /\ c <> 0%R /\
  y_double y "time_step" = Some dt /\ y_double y "time_horizon" = Some T /\ dt <> 0%R /\ (-2147483648 <= T / dt < 2147483648)%R.
