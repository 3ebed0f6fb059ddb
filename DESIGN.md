# Formal model of machines-in-motion/kino_dynamic_opt in Rocq (Coq 8.16.1)

## 1. Method

* `/repo` was read as text only; nothing was built or run. Each definition of the model cites file and lines.
* Every module of the code that we model has (up to) four Coq files under `rocq/theories/`:
  `XModel.v` (functions, no proofs), `XSpec.v` (small independent specification, no reference to model helpers),
  `XProofs.v` (lemmas), `XProps.v` (property theorems only, each closed by `exact`, with `Print Assumptions`,
  together with `Example`s showing the hypotheses are met).
* Numerics. `double` arithmetic is modelled by exact arithmetic: Coq's classical reals `R`
  (module files using `Reals`), or an arbitrary real field (mathcomp `realFieldType`), or `Z`/`nat` for the discrete parts.
  Rounding, NaN and overflow are *not* modelled, except where stated. Index arithmetic, memory bounds,
  exceptions and loops are modelled explicitly: an out-of-range access is the outcome `UB`, a `throw` the outcome `Throw`.
* External numerical kernels (Eigen decompositions, the interior point solver seen from branch and bound, user supplied
  dynamics/objective functions) are universally quantified functions/relations; what is assumed of them is written in the
  hypotheses of the theorem.
* A property that is false of the code is stated and refuted: `..._refuted` with a concrete witness. If a weaker statement holds
  it is proved as `..._partial`, together with the exact extra hypothesis.

## 2. Plan per property

| id | what is modelled | how |
|----|------------------|-----|
| C01 | `Exprs.cpp`: coefficient/variable vectors, all operators, `clean` | induction on term lists; refutation of aliasing `e += e` termination and of "clean removes zeros" |
| C02 | `ConicProblem.cpp`: constraint lists, `buildProblem` rows | induction on constraint list: feasible(compiled) <-> feasible(user); refuted for constraints without variables |
| C03 | SOC rows of `buildProblem` | real algebra per block |
| C04 | rotated cone rows, objective epigraph | real algebra, min over auxiliaries |
| C05 | bounds in `addVar`/`buildProblem` | refuted for continuous variables, proved for binaries in {0..1} |
| C06 | sizes and offsets of the rows | induction, `lia` |
| C07,C08 | `OptVar.cpp`, `addVariableToModel`, `saveSolution` | nat arithmetic |
| C09 | `EqRoutine.cpp` | real algebra over functions `nat -> R` |
| C10-C12 | `Cone.cpp` | real algebra, induction over cone blocks |
| C13 | permutation vectors in `LinSolver` | lists/functions |
| C14,C15 | `IPSolver.cpp` loop with oracle for numerical steps | fuel = iteration bound; invariants |
| C16,C17 | `SparseCholesky.cpp`, `LinSolver.cpp` | induction over columns; refinement loop with oracle residuals |
| C18,C19 | `BnBSolver.cpp` as state machine with relaxation oracle | invariant over iterations |
| C20-C22,C52 | `LbfgsSolver.cpp` | induction over loop fuel; inner products on lists of reals |
| C23-C26,C46 | `solver_lqr` | loops with oracles; matrices in mathcomp for the Riccati recursion |
| C27 | `RtHQPSolver.h` threads | interleaving transition system, inductive invariant |
| C28,C29,C48,C49 | `rt_optimizer` | matrices |
| C30,C31 | `ContactPlanInterface.cpp` | loops over contacts and grid times |
| C32-C35,C45 | `DynamicsOptimizer` | constraint generation and storing |
| C36 | `TerrainDescription.cpp` | vector algebra |
| C37 | `OrientationUtils.cpp` | trigonometry over R |
| C38,C39 | `TrajectoryGenerator.cpp`, `min_jerk_traj.py` | polynomials |
| C40 | `momentum_kinematics_optimizer.py` | list of booleans |
| C41 | `qp.py` | real algebra |
| C42,C47 | settings | enumeration |
| C43 | `DynamicsFeedback.cpp` | induction over horizon |
| C44,C58,C59 | `KinematicsOptimizer.cpp` (robot interface abstract) | compiled problem <-> kinematic plan, induction over horizon and iterations |
| C60 | `ContactPlanInterface.cpp` l.47-155, Eigen's slerp | search lemmas by induction on the list, invariant over the flights of an end-effector, frames between end-effectors |
| C53 | `LinSolver.cpp` l.46-136 (position map of the factored matrix) | index arithmetic over blocks, counting sort invariant |
| C54 | `IPSolver.cpp` step computation with exact linear solves | real algebra, product of factors by induction over iterations |
| C55,C56 | `RtQPSolver.hpp` active-set loop | invariants of the dual method; strictly increasing dual objective for termination |
| C57 | `inverse_kinematics.py` | normal equations of the weighted least squares, invariant over call histories |
| C61 | `momentum_kinematics_optimizer.py` l.162-417 (first-order branch) | invariant over the steps, incl. the array row used as momentum reference |
| C62 | `momentum_kinematics_optimizer.py` l.126-159, 337-365 | induction over via points, lookup lemma of C39 |
| C63 | `second_order_ik.py` (step, solve), `momentum_kinematics_optimizer.py` l.368-376 | least-squares lemma of C57, strict convexity for uniqueness, invariant over inner and outer loop |
| C64 | `second_order_ik.py` l.165-175 | Penrose equations: orthogonality of the residual, null-space projector |
| C65 | `ConicProblem.cpp` l.319-363 (optimize, solveProblem) on top of the compilation model of C02 | last programme: linear model below the convex function, above −threshold^iteration |
| C66 | same | previous values are feasible for the next programme and its linear model is exact there; optimality of the answer |
| C67 | `Model.cpp` l.16-31, `ConicProblem.cpp` l.319-363 | counters of calls related to stored constraints; fold over the refinements |
| C68 | `DynamicsOptimizer.cpp` l.173-330 objective, on top of C32 and C02 | sum over the rows of the objective rearranged into the cost of a plan; plans and points in bijection on the variables |
| C69 | same, with the solve loop of C65–C67 | C65/C66 transported to plans; integral of the torque errors |
| C70 | `NcvxBnBSolver.cpp`, `Model.cpp` on top of C19 and C65 | invariant of the search generic in a stateful node solver; instance: SCP under decided binary bounds |
| C71 | `motion_execution.py` desired_state, interpolate | argmin of the distance brackets the time; case analysis on the position of the time among the stamps |
| C72 | `motion_planner.py` create_time_vector against the integration rule of the planner | induction over the steps; counterexample for optimised steps |
| C73 | `motion_execution.py` control loop | induction over the ticks: index in force; counterexamples for short plans and the feedback velocity |
| C74 | `create_data_file.py` create_file | file system as a map from names to rows; each file is the sampled curve of C71 |
| C75 | `create_data_file.py` create_qp_files, create_lqr_files | as C74, column permutations by case analysis; refutation for the joint velocities |
| C76 | the two LQR gain scripts, backward pass | dynamic programming over the horizon against a separate cost-to-go over all policies; refutations for the first instant and the script's weights |
| C77 | dynamics and linearisations of the two gain scripts | exact difference quotients (the dynamics are quadratic), explicit matrices; refutations for wrong signs, the inertia frame, the order of the feet |
| C78 | `DynamicsOptimizer.cpp` optimize | history of passes as a list, induction on the iteration limit; readiness of the sequence is an invariant of storing |
| C79 | `lqr_gain_manifold.py` quaternions | real sin, cos, atan2; polynomial identities; drift by induction over the steps |
| C80 | `lqr_gain_manifold.py` integrate_step, compute_trajectory_from_controls, dynamics_derivatives | Cholesky as a parameter with a specification (instance given); world inertia positive definite; induction over the horizon; difference quotients by columns |
| C81 | `lqr_gain_manifold.py` costs, compute_Q, compute_value_function, compute_gains | completing the square with the inverse; induction over the horizon with a convex value function; invariant of the two perturbation vectors in the loop of cost_dxdx |
| C82 | `kino_dyn_planner.py` parse_arguments with getopt.getopt | grammar of command lines as an inductive relation; soundness, completeness and uniqueness by induction over the words |
| C83 | `motion_planner.py` optimize_motion and the weights of `DynamicsOptimizer::optimize` | optimisers are arbitrary functions; equivalence with the existence of an alternating run, by induction over the turns |
| C84 | `KinematicsState.hpp/.cpp`, their properties in `PyKinematics.cpp` | vectors with sizes, property assignments as operations; invariant relating the state to the last write per property, by induction over the history |
| C85 | `PinocchioKinematicsInterface.py` on the pybind11 class | attribute names as strings (property or instance dictionary); Pinocchio is a parameter; induction over the history of updates; link to the posture problem of C44/C59 |
| C86 | `robots/simulator.py` | pybullet as a record of what is read and written; list lemmas about first positions and scatter loops; permutation argument (incl + NoDup) for the places; equivalence of right torques and involution |
| C87 | `motion_execution.py` execution loop | fold over passes refined to a specification of intervals; list of configurations of the Jacobians by induction |
| C88 | `robots/blmc_robot_wrapper.py` | wrapper as a machine with cached frame placements; induction over histories (from the end); slices as index conditions |
| C89 | `PyDynamics.cpp` on `DynamicsState` | record with per-effector lists; histories of writes refined to last-value semantics; effector numbers are integers, out of range is UB |
| C90 | `LqrInfoPrinter.cpp` | strings as lists of characters with find/substr as in the standard; induction over the holes of a format; termination of the loop for all texts |
| C91 | `kinoptpy/utils.py`, `helpers.py` | list recursion; algebra of the quaternion matrix |
| C92 | the best iterate in `IPSolver.cpp`, `isBetterThan` | invariant over the loop for any sequence of iterates |
| C93 | `PyContacts.cpp`, `ContactState.cpp` placement | polynomial identities of SO(3) in each branch; induction over histories |
| C94 | `motion_planner.py` init_from_settings over `PlannerSetting` | tables of parameters against a table of file entries; C47 for the values |
| C95 | `SolverLqrSetting.cpp` | symbolic run of the statements of initialize over a store of members; induction over the list of statements for what is kept |
| C96 | `OcpDescription.cpp` sequences and initialize | induction over histories and over sequences |
| C97 | `RtQPSolverInterface.hpp` checkSolution, computeOptimalityCondition | sums of squares; expansion of the quadratic objective |
| C50,C51 | exceptions and repeated calls in `ConicProblem.cpp` | state machine with outcomes |

## 3. Trusted base

1. Coq 8.16.1: its kernel and the standard library..
2. The axioms below. All are from the standard library (the reals and classical logic); none is ours. The list is generated by
   `tools/assumptions.py` from `Print Assumptions`; every `*Props.v` file prints the same during the build.
3. The faithfulness of the hand-written model: section 4 says what is modelled and what is not; every definition cites the lines it models.
4. Exact arithmetic: theorems say nothing about rounding. Where infinities or NaN decide the behaviour the model has an explicit outcome.

`Print Assumptions`, by set of axioms:
<!-- assumptions -->
* `ClassicalDedekindReals.sig_forall_dec`, `FunctionalExtensionality.functional_extensionality_dep`:
  C01_expression_algebra, C01_clean_preserves, C01_clean_isClean_refuted, C01_quadratic_value, C01_addQuaTerm, C01_quadratic_documented_value_refuted, C06_dimensions_and_memory, C51_reset_objective_refuted, C08_solution_read_back, C08_columns_carry_the_declaration, C10_division_inverse_partial, C10_negative_divisor_refuted, C13_permutation_undone, C16_factorise_and_solve, C17_refinement_monotone, C17_error_is_residual_partial, C17_exact_solution_refuted, C18_branch_and_bound_partial, C18_zero_gap_partial, C18_equilibrated_cost_refuted, C18_infeasible_reported_optimal_refuted, C18_root_incumbent_forgotten_refuted, C19_nodes_cover_all_assignments, C19_nodes_partition_assignments, C19_iteration_limit, C20_accepted_conditions, C22_positive_definite, C26_arguments_restored, C26_exact_jacobian, C26_exact_gradient_hessian, C26_hessians_symmetric, C26_exactness_refuted, C28_equalities_preserved, C28_inequalities_preserved, C28_task_optimal, C28_no_assertion, C28_no_slacks_refuted, C28_violated_inequality_refuted, C29_reduced_residual, C29_append_rows_of_rank, C29_constraints_reach_their_task, C29_no_other_rows, C29_solve, C29_solve_terminates, C29_equalities_survive, C29_no_assertion, C29_negative_rank_refuted, C30_sampling, C30_fresh_sequence, C30_plan_from_file, C30_refill_refuted, C30_short_sequence_refuted, C31_numbering, C31_overlap_refuted, C32_vars_are_columns, C32_sampled_plan_is_ready, C32_time_recomputed_linear, C33_decomposition, C33_error_is_slack, C33_tight_is_exact, C34_surface_frame, C35_store, C35_shift_refuted, C37_skew, C37_quaternion_matrices, C38_waypoints, C38_clamped, C38_derivatives, C38_swing, C38_generator, C38_no_overshoot, C38_zero_time_refuted, C38_equal_times_refuted, C39_derivative, C39_fit, C39_swing, C39_windows, C39_empty_list, C39_single_row_refuted, C39_second_fit_refuted, C39_equal_times_refuted, C40_contact_phases, C40_reference, C40_last_phase_refuted, C40_initial_swing_refuted, C40_always_in_contact_refuted, C40_landing_refuted, C41_solution, C41_succeeds, C41_unique, C41_nonsymmetric_refuted, C41_misaligned_refuted, C43_step, C43_set, C43_rollout, C43_angular, C43_runge_kutta_refuted, C43_final_objective_refuted, C43_objective, C43_reference_refuted, C44_variables_are_declared, C45_first_order_model, C45_value_and_gradient, C45_exact_at_stored_duration, C46_scheme, C46_cubic_exact, C46_linear_order4, C46_affine_step, C46_euler_inexact_refuted, C47_loaded, C47_derived, C47_heuristic, C47_names, C47_incomplete, C47_missing_entry_refuted, C47_stale_derived_refuted, C48_weighted_norm, C48_norm, C48_asymmetric_weight_refuted, C48_affine_substitution, C48_quadratic_substitution, C48_append_at_column, C48_remove_zero_rows, C48_prune_refuted, C48_prune_drops_first_refuted, C50_rejected_call_unchanged_refuted, C50_add_variable, C52_penalty_objective, C53_stored_matrix_is_kkt, C53_signs_match_diagonal, C57_minimises, C57_flight_momentum, C57_history, C57_succeeds, C57_rejects, C58_what_moves, C58_failed_solver_keeps_motion, C61_motion, C61_ballistic, C61_succeeds, C61_starts_in_flight_refuted, C61_plan_overwritten_refuted, C61_stale_velocity_refuted, C62_trajectory, C62_passes, C62_equal_times_refuted, C62_missing_rows, C63_minimises, C63_unique, C63_succeeds, C63_motion, C63_motion_succeeds, C63_stored, C63_short_step_refuted, C63_time_lag_refuted, C63_stale_velocity_refuted, C64_priorities, C64_priorities_general, C64_motion, C64_others_ignored_refuted, C64_few_effectors_refuted, C67_number_of_solves, C67_rejected_constraint_redirects_refuted, C68_sampled_plan_is_numbered, C70_nodes_cover_all_assignments, C70_same_search, C70_search_sound, C70_first_optimisation_refuted, C71_desired_state, C71_gains_alone, C71_interpolate, C71_range, C71_quaternion_refuted, C71_zero_step_refuted, C72_time_vector, C72_replayed_velocity, C72_constant_step, C72_optimised_steps_refuted, C73_torque_limits, C73_forces_applied, C73_short_plan_refuted, C73_velocity_refuted, C74_create_file, C75_create_qp_files_partial, C75_create_lqr_files, C75_activation, C75_joint_velocities_refuted, C76_script_weights_refuted, C77_state_jacobian_partial, C77_state_jacobian_refuted, C77_input_jacobian_partial, C77_input_jacobian_refuted, C77_torque_refuted, C77_orientation_rate, C77_feet_mixed_refuted, C77_end_effector_dynamics, C79_product, C79_rotation_matrix, C79_active, C81_value_function, C81_backward_optimal, C81_sign_harmless, C83_second_run_weights_refuted, C85_methods_raise_refuted, C85_methods_never_return, C85_rows_need_vertical_frames, C85_rows_accept_penetration_refuted, C85_differentiate_stores, C86_get_state, C86_round_trip, C86_torques, C86_shipped_torques, C86_torques_refuted, C86_other_bodies_refuted, C87_swing_times, C87_flight_unseen, C88_two_joints_per_leg, C88_three_joints_per_leg, C88_legs_alike_refuted, C88_reaches_goal, C89_reads, C89_last_assignment_wins, C89_torque_refuted, C89_out_of_range, C91_duration, C91_frame_time_refuted, C91_quat2mat, C91_unnormalised_refuted, C91_patch, C91_timesteps, C92_ordinary_comparison, C92_strict, C92_transitive_refuted, C93_file_placement, C94_settings_reach_the_solvers, C94_without_kinematics_refuted, C95_loaded, C95_line_search, C95_results_file, C95_unreadable, C95_not_yaml_refuted, C95_incomplete, C95_fraction_refuted, C96_sum, C96_multiple, C96_distributes, C96_associative, C96_commutative_refuted
* `ClassicalDedekindReals.sig_forall_dec`:
  C01_self_addition_terminates_refuted, C07_empty_block_refuted, C10_product, C39_fit_rejects, C39_fit_late_constraint, C39_unfitted, C48_append, C67_nothing_solved, C83_alternation, C83_consistent, C83_no_turns, C83_second_run, C84_last_assignment_wins, C84_joint_positions_of_another_size, C84_rates_overlap_refuted, C84_resize, C84_new_state, C85_update_writes, C85_floor_is_never_handed_over_refuted, C85_base_may_fall_refuted, C85_integrate_stores, C86_command_size, C86_forces, C88_placements_of, C88_jacobians_current, C88_argument_ignored_refuted, C88_stale_placement_refuted, C96_first_initialize, C96_controls_of_the_last, C96_states_pile_up, C96_second_initialize_refuted, C96_assignment, C96_short_operand
* `ClassicalDedekindReals.sig_forall_dec`, `ClassicalDedekindReals.sig_not_dec`, `FunctionalExtensionality.functional_extensionality_dep`:
  C02_linear_feasible_set_exact, C02_feasible_set_projection, C02_constant_constraint_refuted, C03_soc_constraint_exact, C03_block_is_second_order_cone, C04_epigraph_block, C04_optimum_equivalence, C05_declared_bounds_refuted, C05_declared_binary_bounds_refuted, C05_binary_bounds_partial, C09_factors, C09_undone_exactly, C09_equivalent_problem, C09_scaled_variables, C11_projection_interior, C12_nt_scaling_partial, C12_sparse_square, C12_tiny_multiplier_refuted, C14_starting_point, C14_iteration_limit, C14_returned_iterate, C14_optimal_tolerances, C14_optimal_is_near_optimal, C14_primal_infeasible, C14_dual_infeasible, C14_zero_iterations_refuted, C14_scaled_on_return_refuted, C15_step_stays_inside_partial, C15_step_bounds, C15_minimum_step_refuted, C20_backtracking_success, C20_morethuente_success, C20_failure_codes, C20_interpolation_minimisers, C20_interval_update, C21_outcome_partial, C21_failure_returns_accepted_iterate, C21_monotone_iterates, C21_terminates_and_memory, C21_delta_test, C21_value_of_returned_point_refuted, C21_zero_memory_refuted, C22_direction_is_bfgs, C22_descent_along_run, C22_never_refused, C22_no_nan, C22_armijo_ascent_refuted, C23_iteration, C23_run, C23_iterations, C23_terminates, C23_terminates_refuted, C23_success_refuted, C23_divergence_accepted_refuted, C24_trajectory_consistent, C24_result_consistent, C24_divergence, C25_backward_pass_optimal, C25_backward_pass_succeeds, C25_one_iteration, C25_limits_halve_the_step, C25_with_limits_refuted, C29_inequality_slack, C32_problem_is_momentum_planning, C32_newton_euler_integral, C32_stored_angular_momentum, C32_stored_plan_obeys_dynamics, C32_time_optimal_stored, C32_time_optimal_angular_momentum_refuted, C32_swing_phase_refuted, C33_error_bound, C34_pyramid_bounds, C34_friction_enforced, C34_pyramid_inside_cone_refuted, C34_small_coefficient_refuted, C35_out_of_range_refuted, C36_region_is_hull, C36_normal, C36_halfspaces, C36_rotation, C36_point, C36_ids, C36_few_vertices_refuted, C36_rotation_refuted, C36_collinear_refuted, C37_exp, C37_angular_velocity, C37_from_to, C43_angular_refuted, C44_problem_is_kinematic_planning, C44_optimal, C44_integral, C44_never_infeasible, C49_rotation, C49_distance, C49_add_constraint, C49_delete_constraint, C50_rejected_call_partial, C51_reset_linear_objective_partial, C54_newton_step, C54_centring_terms, C54_residuals_along_run, C55_answer_partial, C55_infeasible_partial, C55_optimize_reports, C55_infeasible_refuted, C55_equalities_refuted, C55_contradictory_equalities_refuted, C55_no_variables_refuted, C56_memory_safe_partial, C56_terminates_partial, C56_terminates_refuted, C56_memory_safe_refuted, C56_too_many_equalities_refuted, C58_stored_joints_follow_plan, C58_limits_after_optimization, C58_any_active_dofs_refuted, C58_inactive_joints_rest_refuted, C59_problem_is_posture_optimization, C59_optimal_posture, C59_initial_state, C59_at_target_stops, C59_posture_limits, C59_momentum_tracking_refuted, C61_initial, C61_initial_rejects, C61_no_iterations_refuted, C61_reported_failed_refuted, C65_trust_region_accuracy, C65_answer_is_feasible, C66_soft_refinements_descend, C66_warm_start_is_improved, C67_dispatch, C68_optimum_is_cheapest_plan, C69_trust_region_planning, C69_soft_constraint_planning, C69_single_solve_is_cheapest, C70_mixed_integer_answer_partial, C70_infeasible_reported_optimal_refuted, C76_backward_pass_optimal, C76_centroidal_gains_partial, C76_end_effector_gains, C76_end_effector_defined, C76_first_instant_refuted, C77_finite_differences, C78_one_pass, C78_passes, C78_total, C78_enough_states, C78_settled_at_once_refuted, C79_integration, C79_drift, C80_step, C80_trajectory, C80_impulse, C91_norm_list, C91_norm_weights, C91_norm_empty, C92_not_beaten_later, C92_undominated, C93_rotation_round_trip, C93_last_assignment_wins, C93_placement_round_trip, C93_any_matrix_refuted, C97_check, C97_check_exact, C97_check_negative, C97_zero, C97_zero_is_optimal, C97_sign_refuted
* closed under the global context (no axiom):
  C07_index_map_bijection, C07_out_of_range_clamped, C27_sequential_between_calls, C27_sequential, C27_mutual_exclusion, C27_deadlock_free, C27_worker_ends, C27_terminates, C27_maximal_executions_finish, C27_no_overflow, C27_overflow_refuted, C27_task_without_initialize_refuted, C27_stop_flag_race_refuted, C27_reinitialize_race_refuted, C29_reduce_columns, C29_ranks_without_slacks_refuted, C31_no_gap_no_repetition, C40_plan, C41_cvxopt_refuted, C42_roundtrip, C42_rejects, C42_history, C42_file, C42_file_values, C42_no_file, C42_not_yaml_refuted, C43_force_gain, C47_no_read_rejected, C47_roundtrip, C47_writable, C47_unwritable_refuted, C60_off, C62_constant, C82_command_line, C82_complete, C82_unambiguous, C82_lqr_option_refuted, C84_orientation_round_trip, C84_fixed_sizes_are_checked, C84_rates_of_another_size, C87_names_refuted, C87_jacobian_configs, C87_next_run, C87_current_refuted, C88_refusals, C88_com_rotation_refuted, C90_format, C90_too_many_numbers, C90_no_hole_refuted, C90_trailing_delimiter_refuted, C90_split_ends, C90_iteration_message, C90_precision_refuted, C95_results_refused, C95_assign, C96_assign_empty_refuted
* `ClassicalDedekindReals.sig_forall_dec`, `ClassicalDedekindReals.sig_not_dec`, `Classical_Prop.classic`, `FunctionalExtensionality.functional_extensionality_dep`:
  C37_log_exp, C37_exp_log, C37_log_projective, C37_orientation_error, C37_round_trip, C37_integration_norm, C37_small_angle_refuted, C37_long_vector_refuted, C37_long_velocity_refuted, C37_integration_refuted, C37_round_trip_refuted, C39_swing_between, C60_flights, C60_ends, C60_orientations_unit, C60_orientations_arc, C60_contact_plan, C60_no_break_refuted, C60_initially_inactive_refuted, C60_missing_viapoint_refuted, C60_stale_viapoint_refuted, C68_plans_are_points, C79_difference_of_integral, C79_integral_of_difference, C79_small_step, C79_long_way_refuted, C80_derivatives_exist, C80_linear_rows, C80_derivatives_sign_refuted, C81_compute_gains_partial, C81_gradient, C81_control_derivatives, C81_hessian_refuted
* `ClassicalDedekindReals.sig_forall_dec`, `ClassicalDedekindReals.sig_not_dec`, `Classical_Prop.classic`, `Description.constructive_definite_description`, `FunctionalExtensionality.functional_extensionality_dep`:
  quadprog_exists
<!-- /assumptions -->

## 4. What is modelled and what is not

| code | model | not modelled |
|---|---|---|
| `solver/interface/Exprs` | ExprsModel: all functions | stream output |
| `solver/interface/Var`, `ConicProblem`, `Cone.cpp` l.31-74, 424-451 | ConicModel: addVar, addLinConstr, addQuaConstr, addSocConstr, setObjective, buildProblem, getSolution | `Verbose` warnings, integer overflow |
| `ConicProblem.cpp` l.319-363, `Model.cpp` | ScpModel: solveProblem, optimize, dispatch | numerical solvers (oracle), MaxIters (never read) |
| `solver/interface/OptVar` | OptVarModel: all | — |
| `solver/interface/Cone.cpp` | ConeModel: cone algebra, scaling, line search | bookkeeping of index fields |
| `solver/interface/SolverSetting`, `PlannerSetting`, `PySetting` | StgModel/StgTables: get/set tables, file reading | YAML parsing (a file is what its nodes convert to) |
| `optimizer/EqRoutine` | EqModel: all | — |
| `optimizer/SparseCholesky` | LdlModel: all | — |
| `optimizer/LinSolver` | LinModel: all | AMD ordering (any permutation) |
| `optimizer/IPSolver`, `CvxInfoPrinter` (info) | IpModel: the loop, its tests and best iterate | printing, convergence rate |
| `optimizer/BnBSolver` | BnbModel: the search | `partition_val_` (never read) |
| `optimizer/NcvxBnBSolver`, `Model.cpp` | NcvxModel: the search with ConicProblem::optimize at the nodes, initialize | `partition_val_`, statistics, dual part of the stored vector; scaled cost vector is arbitrary |
| `motion_planner.py` create_time_vector, `motion_execution.py` | ItpModel: time vector, desired_state, interpolate, torque limits, time index of the loop | simulator, plots, tuning, steady-state loop, the feedback law's matrices |
| `kinoptpy/create_data_file.py` | DatModel: create_file, create_qp_files, create_lqr_files (save_horizon 0) | text format, teststand branch (dead), files left behind by an exception |
| `kinoptpy/lqr_gain_computation.py`, `kinoptpy/end_eff_lqr_gain_computation.py` | RicModel: dynamics, linearisations, discretisation, Riccati recursion, backward pass | loading and saving text files, printing; numpy.linalg.inv is a correct inverse or an error; finite_diff variants that are not called |
| `kinoptpy/lqr_gain_manifold.py` | ManModel: quaternions, dynamics, reference trajectory, derivatives, costs, backward pass | loading and saving text files, the assertion on planned quaternions, horizons below 1; cho_factor/cho_solve meet their specification; _smooth_inv is arbitrary |
| `kino_dyn_planner.py` parse_arguments, `motion_planner.py` optimize_motion | PlnModel: option parsing (getopt), alternation, weights in the shared setting | printing, plotting, construction of the components |
| `RtQPSolverInterface.hpp` checks | RtqModel: checkSolution, computeOptimalityCondition; JacobiSVD::solve is a parameter | capacities, printing |
| `OcpDescription.cpp` sequences, initialize | OcpModel: states, controls, arithmetic, histories of initialize | setRandom, the user's configure |
| `SolverLqrSetting.cpp` | LstModel: initialize statement by statement, all getters, file names | user_parameters_ (a YAML node), integer overflow for more than 46340 coefficients |
| `motion_planner.py` init_from_settings | InsModel: every assignment, both orders, over StgModel's PlannerSetting | printed messages |
| `KinematicsState.hpp/.cpp`, `PyKinematics.cpp` l.26-80 | RbsModel: containers, sizes, Python property assignments | toString, lifetime of references held by Python |
| `PinocchioKinematicsInterface.py`, `KinematicsInterface.cpp` | PkiModel: attribute semantics of the interface object, update/integrate/differentiate on an abstract Pinocchio | viewer, URDF, logarithmicMap |
| `robots/simulator.py`, `motion_execution.py` (execution loop) | SimModel: Simulator, swing times, configuration held by the wrapper | pybullet itself, plots, `_action`, gains (C73 has the interpolation) |
| `robots/blmc_robot_wrapper.py` | RbwModel: Jacobians, placements, desired velocity, initial configurations | display, centroidal momentum, log of poses |
| `PyDynamics.cpp` | PydModel: property setters and getters of DynamicsState | sequences (C45), feedback binding |
| `PyContacts.cpp`, placement of `ContactState.cpp` | PycModel: properties of ContactState; Eigen conversions between matrix and quaternion written out | references held by Python, printing |
| `LqrInfoPrinter.cpp` | MsgModel: split, printMsg, the iteration message | colours, conversion of numbers to digits, the other messages |
| `kinoptpy/utils.py`, `helpers.py` | UtlModel: display_motion, norm, quat2mat, patch, time steps | plots, reading YAML |
| `optimizer/LbfgsSolver` | LbfgsModel: two-loop recursion, line searches, main loop, NLP interface | failing allocation |
| `rt_optimizer/RtMatrix`, `RtQPSolver`, `RtHQPSolver`, `RtModel`, `RtMutex` | RtMatModel, QpModel, HqpModel (threads), HierModel, RtmModel | singular value decomposition (oracle with its Penrose/SVD specification), timing, `RtQPSolverInterface` storage |
| `solver_lqr` | LqrModel: forward/backward pass, finite differences, regularisation, outer loop | YAML storage, printing, unused second derivatives |
| `momentumopt/cntopt` | CntModel, FlightModel, TerrModel | YAML reading of contact files |
| `momentumopt/utilities` | TrajModel/Hermite, OriModel | Clock |
| `momentumopt/dynopt` | DynModel (programme, store, time passes), FbModel | YAML output, timing |
| `momentumopt/kinopt` | KinModel | display, YAML output |
| `kinoptpy/{qp,min_jerk_traj,inverse_kinematics,momentum_kinematics_optimizer,second_order_ik}.py` | PyqpModel, PolyModel, IkModel, CplModel, MkoModel, SoModel | plotting; pinocchio is a record of functions |
| bindings (`srcpy`, except PySetting), demos, `helpers.py`, `display.py`, `robots/` | — | glue, plotting and simulation |

The oracles (numerical solver behind the modelling layer, SVD, numpy/quadprog, pinocchio) appear as universally quantified functions; what a
theorem assumes of them is in its hypotheses, and a concrete instance meeting the hypotheses is exhibited beside it.
