m("C01","partial","C01_expression_algebra C01_clean_preserves C01_clean_isClean_refuted C01_self_addition_terminates_refuted C01_quadratic_value C01_addQuaTerm C01_quadratic_documented_value_refuted",
  "Algebra and value preservation of clean proved for all expressions and assignments. Refuted: clean() can leave an expression that isClean() does not accept (zero coefficients survive), e += e does not terminate, and the documented value of a quadratic expression (flags kept by clear).")
m("C02","partial","C02_linear_feasible_set_exact C02_feasible_set_projection C02_constant_constraint_refuted",
  "Exact feasible set for all histories whose variable-free linear constraints are true; refuted without that side condition: a contradictory constraint without variables is silently dropped.")
m("C03","proved","C03_soc_constraint_exact C03_block_is_second_order_cone","For every history, every point.")
m("C04","proved","C04_epigraph_block C04_optimum_equivalence","For every history with non-negative quadratic coefficients; includes trust-region and soft-constraint variants.")
m("C05","partial","C05_declared_bounds_refuted C05_declared_binary_bounds_refuted C05_binary_bounds_partial",
  "False of the code: continuous bounds never become rows, binary bounds are always [0,1]. What holds is C05_binary_bounds_partial.")
m("C06","partial","C06_dimensions_and_memory C51_reset_objective_refuted","For every history, rejected calls included; excludes re-setting a quadratic objective, which C51_reset_objective_refuted shows to be out of range.")
m("C50","partial","C50_rejected_call_unchanged_refuted C50_rejected_call_partial C50_add_variable","Rejected quadratic and cone constraints leave auxiliary variables behind; the user-visible feasible set is nevertheless unchanged.")
m("C51","partial","C51_reset_objective_refuted C51_reset_linear_objective_partial","Re-setting after a quadratic objective reads out of range, for every history.")
m("C07","partial","C07_index_map_bijection C07_out_of_range_clamped C07_empty_block_refuted","Bijection, disjointness, coverage for all block lists; clamping stays in the block for non-empty blocks; refuted for empty blocks (effector never in contact): the index falls into the previous block.")
m("C08","proved","C08_solution_read_back C08_columns_carry_the_declaration","All block lists, all orders of adding, all constraints added after, all solver outputs; instances for both planners' block lists.")
m("C09","proved","C09_factors C09_undone_exactly C09_equivalent_problem C09_scaled_variables","Every compiled problem, cone layout and iteration count; positive factors, block constant on cones, equivalence of feasibility, objective and optimality, exact undoing, rescaled iterates. Exact real arithmetic.")
m("C10","partial","C10_product C10_division_inverse_partial C10_negative_divisor_refuted","All layouts and vectors; inverse both ways when linear entries, block heads and determinants are at least the division guard 1e-13; refuted below the guard (every negative divisor is replaced by 1e-13).")
m("C11","proved","C11_projection_interior","All layouts and vectors.")
m("C12","partial","C12_nt_scaling_partial C12_sparse_square C12_tiny_multiplier_refuted","All layouts, all interior pairs with z_i >= 1e-13 and block determinants >= 1e-26: W z = lambda, W lambda = s, W linear, invertible, self-adjoint, cone preserving, status Inside; the sparse KKT block is W^2. Refuted below the guard.")
m("C15","partial","C15_step_stays_inside_partial C15_step_bounds C15_minimum_step_refuted","All interior iterates and directions, when the line search result is above MinimumStepLength; refuted when the minimum step is forced.")
m("C13","proved","C13_permutation_undone","Every valid problem, permutation, update history, right-hand side and work-array content; AMD ordering is any permutation.")
m("C16","proved","C16_factorise_and_solve","The sparse up-looking algorithm with elimination tree and flat storage; every order, pattern, sign vector, regularisation, work-array content.")
m("C17","partial","C17_refinement_monotone C17_error_is_residual_partial C17_exact_solution_refuted","Termination, bound and monotone computed error for every factorisation routine and history. The computed error is the exact residual except in two rows per second-order block, where the regularisation has the wrong sign or is missing (refuted: an exact solution is not recognised).")
m("C53","proved","C53_stored_matrix_is_kkt C53_signs_match_diagonal","Every valid problem, permutation and update history.")
m("C14","partial","C14_starting_point C14_iteration_limit C14_returned_iterate C14_optimal_tolerances C14_optimal_is_near_optimal C14_primal_infeasible C14_dual_infeasible C14_zero_iterations_refuted C14_scaled_on_return_refuted",
  "Every oracle for the linear solver, every number of iterations >= 1: iteration bound, which iterate is returned, what each exit code certifies (tolerances, weak duality, Farkas certificates). Needs tau > 0; the inaccurate codes use stale cost values. Refuted: zero iterations; data returned still equilibrated.")
m("C54","proved","C54_newton_step C54_centring_terms C54_residuals_along_run","Exact solves, tau and kappa positive; all problems and numbers of steps.")
m("C18","partial","C18_branch_and_bound_partial C18_zero_gap_partial C18_equilibrated_cost_refuted C18_infeasible_reported_optimal_refuted C18_root_incumbent_forgotten_refuted",
  "All trees, settings and (stateful) exact relaxation solvers: the search terminates without memory errors and each exit code means what it says, within the gaps. Missing (refuted): the compared costs use the equilibrated cost vector; an infeasible relaxation with an integral-looking iterate is taken for a solution; the root's rounded incumbent is forgotten.")
m("C19","proved","C19_nodes_cover_all_assignments C19_nodes_partition_assignments C19_iteration_limit",
  "Coverage, limits and memory for every relaxation solver, even inconsistent ones; disjointness when returned vectors respect fixed binaries.")
m("C20","proved","C20_backtracking_success C20_accepted_conditions C20_morethuente_success C20_failure_codes C20_interpolation_minimisers C20_interval_update",
  "Every objective, gradient, starting point, direction and parameter set: what success certifies for each of the four searches, exact trace of backtracking, meaning of the failure codes, the interpolation formulas are minimisers. Exact real arithmetic.")
m("C21","partial","C21_outcome_partial C21_failure_returns_accepted_iterate C21_monotone_iterates C21_terminates_and_memory C21_delta_test C21_value_of_returned_point_refuted C21_zero_memory_refuted",
  "Meaning of each exit code, restored iterate, monotone values, no memory error for m >= 1. Refuted: the reported value after a failed search is the value of the discarded trial; a memory of zero passes the checks and indexes an empty array.")
m("C22","partial","C22_direction_is_bfgs C22_positive_definite C22_descent_along_run C22_never_refused C22_no_nan C22_armijo_ascent_refuted",
  "Every history, with wrap-around of the ring buffer: the two-loop recursion computes minus the inverse BFGS matrix times the gradient; positive definite and descent for searches that enforce curvature (Wolfe, strong Wolfe, More-Thuente); refuted for the Armijo search, which does not.")
m("C52","proved","C52_penalty_objective","All nonlinear programmes and points.")
m("C23","partial","C23_iteration C23_run C23_iterations C23_terminates C23_terminates_refuted C23_success_refuted C23_divergence_accepted_refuted",
  "Every problem, setting and run: cost strictly drops or nothing changes; iteration bound; termination for increase factor > 1 and positive minimal regularization. Refuted: termination with minimal regularization 0; SUCC_gradient after a failed backward pass although the controls are not stationary; a diverging trial is accepted when it lowers the cost by more than 1e10.")
m("C24","proved","C24_trajectory_consistent C24_result_consistent C24_divergence",
  "Every state at the head of an iteration and every result: initial state, dynamics, limits, cost; EXIT_divergence keeps the given trajectory.")
m("C25","partial","C25_backward_pass_optimal C25_backward_pass_succeeds C25_one_iteration C25_limits_halve_the_step C25_with_limits_refuted",
  "All linear-quadratic problems, horizons, dimensions, states, policies (regularization 0, no control limits), with finite-difference derivatives and Cholesky modelled; refuted with control limits: the quadratic program misses the factor 1/2 so the step is halved even when the limits are inactive.")
m("C26","proved","C26_arguments_restored C26_exact_jacobian C26_exact_gradient_hessian C26_hessians_symmetric C26_exactness_refuted",
  "Exact arithmetic; all affine dynamics, quadratics, points; the fixed step of the code (2^-17). Exactness does not extend to cubics.")
m("C46","proved","C46_scheme C46_cubic_exact C46_linear_order4 C46_affine_step C46_euler_inexact_refuted",
  "All coefficients, steps, states; the settings loader always selects Euler, which is not exact on a linear right-hand side.")
m("C27","proved","C27_sequential_between_calls C27_sequential C27_mutual_exclusion C27_deadlock_free C27_worker_ends C27_terminates C27_maximal_executions_finish C27_no_overflow C27_overflow_refuted C27_task_without_initialize_refuted C27_stop_flag_race_refuted C27_reinitialize_race_refuted",
  "All programs of calls, all interleavings and spurious wake-ups of both threads, under sequential consistency; mutex, condition variables, flags and every shared access are separate steps. Refuted: an eighth equality task without reset leaves prev_K_; a task before initialize() hangs; the stop flag and (on re-initialisation) the computed flag are accessed without the mutex.")
m("C28","proved","C28_equalities_preserved C28_inequalities_preserved C28_task_optimal C28_no_assertion C28_no_slacks_refuted C28_violated_inequality_refuted",
  "Every hierarchy, null-space oracle and QP oracle: equality residuals never change afterwards (the property). Extras with an exact QP: satisfied inequalities stay satisfied up to the relaxation per later task; each task is optimal in the null space. Refuted: a violated inequality can be worsened by a lower-priority task; without slacks the second equality task fails a dimension assertion.")
m("C48","partial","C48_weighted_norm C48_norm C48_asymmetric_weight_refuted C48_affine_substitution C48_quadratic_substitution C48_append C48_append_at_column C48_remove_zero_rows C48_prune_refuted C48_prune_drops_first_refuted",
  "All matrices and points, with dimension assertions. The weighted norm is exact for symmetric weights only (refuted otherwise); the second row-removal routine does not count the first row (refuted).")
m("C29","proved","C29_reduce_columns C29_reduced_residual C29_inequality_slack C29_append_rows_of_rank C29_constraints_reach_their_task C29_no_other_rows C29_solve C29_solve_terminates C29_equalities_survive C29_no_assertion C29_ranks_without_slacks_refuted C29_negative_rank_refuted",
  "All masks, matrices, calls, ranks and oracles; in-place compaction loop modelled. Extras: which rows reach which task, the loop over the ranks, composition with C28, absence of failed assertions. Refuted extras: the request to solve ranks without slacks is ignored; constraints with a negative rank are dropped silently. Row sizes exactly at the removal threshold are excluded.")
m("C49","proved","C49_rotation C49_distance C49_add_constraint C49_delete_constraint",
  "All entries, sizes and factorisations: the rotation is orthogonal and annihilates its entry, adding or deleting a constraint keeps J'N = R triangular and J J' unchanged.")
m("C55","partial","C55_answer_partial C55_infeasible_partial C55_optimize_reports C55_infeasible_refuted C55_equalities_refuted C55_contradictory_equalities_refuted C55_no_variables_refuted",
  "All strictly convex problems and run lengths over exact reals, for runs that never take the rollback branch and never take a nonzero direction for zero (|z|^2 <= eps); refuted without that restriction: a feasible problem is declared infeasible, an equality is left violated, contradictory equalities are reported solved. Eigen's LLT is an oracle giving the inverse factor.")
m("C56","partial","C56_memory_safe_partial C56_terminates_partial C56_terminates_refuted C56_memory_safe_refuted C56_too_many_equalities_refuted",
  "Same restriction; without it refuted: an infinite loop through the rollback branch on a feasible problem, an access outside the active set vector, and R.col(n) with more equalities than variables.")
m("C30","proved","C30_sampling C30_fresh_sequence C30_plan_from_file C30_refill_refuted C30_short_sequence_refuted",
  "All plans, horizons, steps and sequences with at least N states; the exact statement of the property on freshly sized sequences with mutually exclusive contacts. Refuted for refilled sequences (old activations stay) and short sequences (out of bounds).")
m("C31","proved","C31_numbering C31_no_gap_no_repetition C31_overlap_refuted",
  "All plans with ordered contacts; refuted for overlapping contacts.")
m("C38","proved","C38_waypoints C38_clamped C38_derivatives C38_swing C38_generator C38_no_overshoot C38_zero_time_refuted C38_equal_times_refuted",
  "All way-points and times; the swing matrix is shown nonsingular and the closed form derived. Householder QR is an oracle that is exact on nonsingular systems. Refuted: query at time zero is not finite; equal times have no solution.")
m("C39","proved","C39_derivative C39_fit C39_fit_rejects C39_fit_late_constraint C39_swing C39_swing_between C39_windows C39_empty_list C39_unfitted C39_single_row_refuted C39_second_fit_refuted C39_equal_times_refuted",
  "All constraint lists, times and positions; numpy.linalg.solve is an oracle that returns a solution and fails only without a unique one. Refuted: single-row derivative, second fit, equal times.")
m("C36","proved","C36_region_is_hull C36_normal C36_halfspaces C36_rotation C36_point C36_ids C36_few_vertices_refuted C36_rotation_refuted C36_collinear_refuted",
  "All strictly convex planar polygons: the half-spaces cut exactly the convex hull out of the plane. The rotation is orthonormal only if the first two edges are perpendicular (refuted otherwise); the normal points to the side from which the corners are clockwise.")
m("C37","proved","C37_skew C37_quaternion_matrices C37_exp C37_log_exp C37_exp_log C37_log_projective C37_orientation_error C37_angular_velocity C37_from_to C37_round_trip C37_integration_norm C37_small_angle_refuted C37_long_vector_refuted C37_long_velocity_refuted C37_integration_refuted C37_round_trip_refuted",
  "All vectors and unit quaternions over exact reals. Refuted: exactness in the small-angle branch, vectors longer than half a turn, integrateAngularVelocity as integration of an angular velocity, and the round trip at exactly half a turn.")
m("C32","proved","C32_problem_is_momentum_planning C32_newton_euler_integral C32_vars_are_columns C32_sampled_plan_is_ready C32_stored_angular_momentum C32_stored_plan_obeys_dynamics C32_time_recomputed_linear C32_time_optimal_stored C32_time_optimal_angular_momentum_refuted C32_swing_phase_refuted",
  "All horizons, contact plans and solver outputs over exact reals: what the solver accepts as feasible is exactly the momentum planning problem of DynSpec, and the stored plan obeys the equations (given one state more than the horizon, see C35). Refuted: in time optimisation the converged angular momentum was integrated with the previous durations; a swing phase reads contact number -1. The external force acts in the first step only and not at all in time optimisation (part of the specification).")
m("C33","proved","C33_decomposition C33_error_is_slack C33_tight_is_exact C33_error_bound","All lever arms, forces and plans.")
m("C34","proved","C34_surface_frame C34_pyramid_bounds C34_friction_enforced C34_pyramid_inside_cone_refuted C34_small_coefficient_refuted",
  "All forces, rotations and nonnegative coefficients; enforcement for every feasible point. Refuted: the pyramid is not inside the cone, and coefficients below 0.001 are raised to it.")
m("C35","partial","C35_store C35_out_of_range_refuted C35_shift_refuted",
  "C35_store: with at least N+1 states exactly the planned values are written, com and momenta of step t to state t+1, the rest to state t. The full property is false: the planner allocates N states, so optimize() always writes outside the sequence; and com/momenta are shifted by one state.")
m("C45","proved","C45_first_order_model C45_value_and_gradient C45_exact_at_stored_duration C32_problem_is_momentum_planning",
  "All linearisation points; C32_problem_is_momentum_planning states that the compiled constraints are this model (dynamics_time in DynSpec).")
m("C43","partial","C43_step C43_set C43_rollout C43_angular C43_angular_refuted C43_runge_kutta_refuted C43_final_objective_refuted C43_objective C43_reference_refuted C43_force_gain",
  "C43_step and C43_rollout: with Euler integration, for all plans and horizons, the rollout reproduces the planned com and linear momentum; angular momentum too if the contact points carry no torque and no cop offset (C43_angular). The full property is false: with Runge-Kutta integration the com increment is not the planned one (C43_runge_kutta_refuted), torques and cop are dropped (C43_angular_refuted), the tracking reference is one step late (C43_reference_refuted) and the objective of the final step reads outside the sequence (C43_final_objective_refuted).")
m("C40","partial","C40_plan C40_contact_phases C40_reference C40_last_phase_refuted C40_initial_swing_refuted C40_always_in_contact_refuted C40_landing_refuted",
  "C40_plan: exactly what the extraction lists for every pattern; C40_contact_phases: these are the contact phases if the effector starts in contact and ends in the air; C40_reference: position and velocity references at every step. The full property is false: a contact phase that reaches the last step is dropped, an effector that starts in the air gets its flight phases, one that never moves makes the generator raise.")
m("C41","partial","C41_solution C41_succeeds C41_unique C41_nonsymmetric_refuted C41_misaligned_refuted C41_cvxopt_refuted quadprog_exists",
  "For every symmetric P and arguments of matching shapes a result of the quadprog wrapper minimises the given QP, exists when P is positive definite and the set is non-empty, and is unique (quadprog itself enters through its documented contract quadprog_sound/quadprog_complete). The full property is false: a non-symmetric P is solved for another objective, the lengths of b and h are only checked together, and the cvxopt wrapper always raises.")
m("C42","proved","C42_roundtrip C42_rejects C42_history C42_file C42_file_values C42_no_file C42_not_yaml_refuted",
  "All parameters, values and histories, by finite tables generated from the switch statements and checked in the kernel plus induction over histories. Beyond the property: loading from a file (every parameter gets its own key), and a file that is not YAML is reported as success with nothing written (C42_not_yaml_refuted).")
m("C47","partial","C47_loaded C47_derived C47_heuristic C47_names C47_incomplete C47_no_read_rejected C47_roundtrip C47_writable C47_unwritable_refuted C47_missing_entry_refuted C47_stale_derived_refuted",
  "For every complete file: loaded and derived parameters, names, heuristic; getters return the member of their enumerator. The full property is false: six parameters can be read but not written, a file with one missing entry leaves every derived parameter unwritten while the call returns normally (C47_incomplete), and later writes do not update derived parameters.")
m("C57","proved","C57_minimises C57_flight_momentum C57_history C57_succeeds C57_rejects quadprog_exists",
  "All robots, weights, gains, references and call histories; the robot kinematics (pinocchio) are arbitrary functions of the configuration, quadprog enters through its documented contract.")

m("C44","proved","C44_problem_is_kinematic_planning C44_optimal C44_integral C44_variables_are_declared C44_never_infeasible",
  "All robots (interface functions arbitrary), horizons, weights. Beyond the property: the problem is exactly the kinematic planning problem (both directions), optima minimise its cost over all plans, and it is solvable whenever the current sequence respects the limits. C44_default_posture_refuted: with ActiveDofs other than 0,1,... the posture term compares joint ActiveDofs[d] with entry d of the default posture.")
m("C58","partial","C58_stored_joints_follow_plan C58_what_moves C58_failed_solver_keeps_motion C58_limits_after_optimization C58_any_active_dofs_refuted C58_inactive_joints_rest_refuted",
  "Proved for all robots with usual joint integration when ActiveDofs is 0,1,..,n-1. For other lists the property is false: the velocity of variable d is written to generalised coordinate d instead of ExtendedActiveDofs[d], and inactive joints drift with stale velocities.")
m("C59","partial","C59_problem_is_posture_optimization C59_optimal_posture C59_initial_state C59_at_target_stops C59_posture_limits C59_momentum_tracking_refuted",
  "Everything but momentum tracking: the call that couples velocities and momenta to the posture is commented out (l.402), so the desired momenta never influence the posture.")
m("C60","proved","C60_flights C60_off C60_ends C60_orientations_unit C60_orientations_arc C60_contact_plan C60_no_break_refuted C60_initially_inactive_refuted C60_missing_viapoint_refuted C60_stale_viapoint_refuted",
  "All plans with flights of at least two steps and viapoints, exact arithmetic, exact solution of nonsingular 7x7 systems; C60_contact_plan composes it with the filling of the contacts (C30). Limits: contacts without a gap or a contact from step 0 of an initially inactive end-effector run off the sequence; a missing viapoint is read uninitialised or taken from the previous flight, also of another end-effector; a flight of one step gives a singular system (C38_equal_times_refuted).")

m("C61","proved","C61_motion C61_ballistic C61_succeeds C61_initial C61_initial_rejects C61_starts_in_flight_refuted C61_plan_overwritten_refuted C61_stale_velocity_refuted C61_no_iterations_refuted C61_reported_failed_refuted quadprog_exists",
  "First-order inverse kinematics, exact arithmetic, robot model (pinocchio) and se3.integrate/log abstract, quadprog as documented. Limits shown: a motion starting in the air and max_iterations = 0 raise; the planned momentum of the last step in contact is overwritten in place; the recorded end-effector velocity uses the Jacobian of the previous configuration (C61_stale_case: different from the true one); convergence in the last iteration is reported as a failure.")
m("C62","proved","C62_trajectory C62_passes C62_constant C62_equal_times_refuted C62_missing_rows",
  "All via points with positive increasing times and a row per via point, exact arithmetic, exact solution of nonsingular 7x7 systems. Equal times with different values and missing rows raise.")
m("C63","proved","C63_minimises C63_unique C63_succeeds C63_motion C63_motion_succeeds C63_stored C63_short_step_refuted C63_time_lag_refuted C63_stale_velocity_refuted",
  "Exact arithmetic; pinocchio (with the drift terms), splines, se3.integrate abstract; quadprog as documented (satisfiable: quadprog_exists). Limits shown: dt < 1 ms (and fewer than two states) raises; if dt is not a multiple of 1 ms the recorded states lag behind by a growing amount; the optimizer stores end-effector velocities formed with the Jacobian of one old configuration (of the first-order object) for all rows.")
m("C64","proved","C64_priorities C64_priorities_general C64_motion C64_others_ignored_refuted C64_few_effectors_refuted",
  "Exact arithmetic, pseudo-inverse satisfying the Penrose equations on the two matrices (scipy's cut-off 1e-5 is not modelled). Limits shown: with more than four end-effectors the references of the others have no influence; with fewer the joint posture competes with the end-effectors on the first level, so their error is not minimal.")
m("C65","proved","C65_trust_region_accuracy C65_answer_is_feasible",
  "All scoped, convex models (call_convex, call_not_absurd as in C02), exact arithmetic; the numerical solvers are an oracle whose optimal answers are feasible.")
m("C66","proved","C66_soft_refinements_descend C66_warm_start_is_improved",
  "As C65 with an oracle whose optimal answers are optimal.")
m("C67","proved","C67_number_of_solves C67_nothing_solved C67_dispatch C67_rejected_constraint_redirects_refuted",
  "All scoped models whose quadratic constraints were accepted. Limit shown: a rejected quadratic constraint with a trust region (exception) still redirects a mixed-integer model to the search over non-convex relaxations.")
m("C68","proved","C68_optimum_is_cheapest_plan C68_plans_are_points C68_sampled_plan_is_numbered",
  "Programme without approximation of its constraints: time optimisation, or the warm start of the other heuristics. Hypotheses: ready and numbered (met by every sampled contact plan, C32, C68_sampled_plan_is_numbered), references for every step, non-negative weights; exact arithmetic.")
m("C69","proved","C69_trust_region_planning C69_soft_constraint_planning C69_single_solve_is_cheapest",
  "As C65, C66 and C68; the numerical solver is an oracle whose optimal answers are feasible (trust region) resp. optimal (others).")
m("C70","partial","C70_nodes_cover_all_assignments C70_same_search C70_search_sound C70_mixed_integer_answer_partial C70_infeasible_reported_optimal_refuted C70_first_optimisation_refuted",
  "Proved for problems on which a programme has been built before, and for solvers whose non-optimal answers that the search still uses are clearly fractional. Missing because false: the first optimisation of a fresh model reads uninitialised cone sizes (undefined behaviour), and the exit code of a node is ignored, so an infeasible problem can be reported Optimal. The numerical solver is an oracle.")
m("C71","partial","C71_desired_state C71_gains_alone C71_interpolate C71_range C71_quaternion_refuted C71_zero_step_refuted",
  "Proved for increasing time stamps. Missing because false: interpolated orientations are not unit quaternions; a time step of zero gives a division by zero.")
m("C72","partial","C72_time_vector C72_replayed_velocity C72_constant_step C72_optimised_steps_refuted",
  "Proved in full for constant time steps. Missing because false: with optimised time steps the stamps use the step of the state before, the planner that of the state after.")
m("C73","partial","C73_torque_limits C73_forces_applied C73_short_plan_refuted C73_velocity_refuted",
  "Proved: limits, and the forces in force for plans with steps of at least the control period. Missing because false: the loop has a fixed length of four seconds and throws for shorter plans; the velocity of the momentum feedback is divided by the time since the start, or zero in later executions.")
m("C74","proved","C74_create_file",
  "The text format of the files is not modelled; reals are exact.")
m("C75","partial","C75_create_qp_files_partial C75_create_lqr_files C75_activation C75_joint_velocities_refuted",
  "Proved for all files but quadruped_velocities.dat, which is shown to hold foot velocities in place of joint velocities.")
m("C76","partial","C76_backward_pass_optimal C76_centroidal_gains_partial C76_end_effector_gains C76_end_effector_defined C76_script_weights_refuted C76_first_instant_refuted",
  "Proved in full for the end-effector script. Missing because false: the loop of the centroidal script stops one step early, so its gains are those from time 1 on; and its Q is overwritten with zeros, so that all its gains are zero. numpy.linalg.inv is assumed correct.")
m("C77","partial","C77_state_jacobian_partial C77_state_jacobian_refuted C77_input_jacobian_partial C77_input_jacobian_refuted C77_finite_differences C77_torque_refuted C77_orientation_rate C77_feet_mixed_refuted C77_end_effector_dynamics",
  "Proved: the analytical Jacobian in all rows but the angular acceleration by the orientation, except two entries; the finite differences exactly. Missing because false: two entries of the analytical Jacobian have the wrong sign, its inertia is not rotated, the vertical moment of a contact force has a wrong sign, and the feet are paired in reverse order.")
m("C78","partial","C78_one_pass C78_passes C78_total C78_enough_states C78_settled_at_once_refuted",
  "Proved for every answer of the solver. Missing because false: a first pass that has settled is still repeated once. Completion needs one state more than the planner allocates (C35).")
m("C79","partial","C79_product C79_rotation_matrix C79_integration C79_drift C79_difference_of_integral C79_integral_of_difference C79_small_step C79_active C79_long_way_refuted",
  "Proved for all quaternions; inverse exactly above the thresholds of the expansions, up to a relative error of the fourth power of the angle below. Missing because false: beyond half a turn the difference is the longer rotation.")
m("C80","partial","C80_step C80_trajectory C80_impulse C80_derivatives_exist C80_linear_rows C80_derivatives_sign_refuted",
  "Proved for every Cholesky routine that meets its specification. Missing because false: the matrices are exactly the negatives of the difference quotients (harmless for the gains, C81_sign_harmless).")
m("C81","partial","C81_value_function C81_backward_optimal C81_compute_gains_partial C81_sign_harmless C81_gradient C81_control_derivatives C81_hessian_refuted",
  "Proved for every convex model of the costs and every correct Cholesky routine. Missing because false: the Hessian is computed with a perturbation that is not undone; with the identity weights of the script its entries are 1 minus the mean index, so it is indefinite.")
m("C82","partial","C82_command_line C82_complete C82_unambiguous C82_lqr_option_refuted",
  "Proved for all command lines, including the option parser of the Python library. Missing because false: the gains can never be asked for, so --disable_lqr does nothing.")
m("C83","partial","C83_alternation C83_consistent C83_no_turns C83_second_run C83_second_run_weights_refuted",
  "Proved for arbitrary dynamics and kinematics optimisers. Missing because false: the tracking weights overwrite the regulation weights in the shared setting, so a second call regulates with them.")
m("C84","partial","C84_last_assignment_wins C84_orientation_round_trip C84_fixed_sizes_are_checked C84_joint_positions_of_another_size C84_rates_of_another_size C84_rates_overlap_refuted C84_resize C84_new_state",
"last-write-wins for all histories of assignments proved; independence of the parts refuted for generalised rates of another size than the robot's, which are accepted")
m("C85","partial","C85_methods_raise_refuted C85_methods_never_return C85_update_writes C85_floor_is_never_handed_over_refuted C85_base_may_fall_refuted C85_rows_need_vertical_frames C85_rows_accept_penetration_refuted C85_integrate_stores C85_differentiate_stores",
"what the bodies of the methods write is proved; refuted: the methods return (TypeError always), the floor constraints reach the optimizer (stored under other attribute names), the rows linearise the world height (LOCAL axes)")
m("C86","partial","C86_get_state C86_round_trip C86_command_size C86_torques C86_shipped_torques C86_torques_refuted C86_forces C86_other_bodies_refuted",
"state exchange, sizes and forces proved; that torques reach their joints is proved equivalent to the joint order being an involution (true of the shipped list) and refuted otherwise; contacts of other bodies are counted (refuted)")
m("C87","partial","C87_swing_times C87_flight_unseen C87_names_refuted C87_jacobian_configs C87_next_run C87_current_refuted",
"what is recorded is proved for all runs; refuted: Jacobians of the current configuration, flight recorded without contact points (C87_flight_unseen), names of the feet")
m("C88","partial","C88_two_joints_per_leg C88_three_joints_per_leg C88_legs_alike_refuted C88_placements_of C88_jacobians_current C88_argument_ignored_refuted C88_stale_placement_refuted C88_refusals C88_com_rotation_refuted C88_reaches_goal",
"Jacobians, centre of mass, refusals and desired velocity proved for all histories; refuted: current placements, evaluation at the argument, equal legs with three joints per leg")
m("C89","partial","C89_reads C89_last_assignment_wins C89_torque_refuted C89_out_of_range",
"proved for all histories without setEffTorque; setEffTorque refuted for all histories; invalid effector numbers are undefined behaviour")
m("C90","partial","C90_format C90_too_many_numbers C90_no_hole_refuted C90_trailing_delimiter_refuted C90_split_ends C90_iteration_message C90_precision_refuted",
"formatting proved for all well-formed formats; refuted: texts without hole, trailing delimiter, two-figure precisions")
m("C91","partial","C91_duration C91_frame_time_refuted C91_norm_list C91_norm_weights C91_norm_empty C91_quat2mat C91_unnormalised_refuted C91_patch C91_timesteps",
"all proved as stated except the frame times and normalisation, refuted")
m("C92","partial","C92_ordinary_comparison C92_strict C92_not_beaten_later C92_undominated C92_transitive_refuted",
"proved for all runs; the comparison itself is refuted as an order (not transitive when signs of infeasibility change)")
m("C93","partial","C93_rotation_round_trip C93_last_assignment_wins C93_placement_round_trip C93_file_placement C93_any_matrix_refuted",
"proved for all histories with rigid placements; matrices that are not rigid are refuted")
m("C94","partial","C94_settings_reach_the_solvers C94_without_kinematics_refuted",
"proved for all complete files with load_kinematics true; with false it is refuted (uninitialised flag)")
m("C95","partial","C95_loaded C95_line_search C95_results_file C95_unreadable C95_not_yaml_refuted C95_incomplete C95_fraction_refuted C95_results_refused C95_assign",
"proved for all files; silent acceptance of a file that is not YAML and fractional numbers of coefficients are refuted")
m("C96","partial","C96_first_initialize C96_controls_of_the_last C96_states_pile_up C96_second_initialize_refuted C96_assignment C96_assign_empty_refuted C96_sum C96_multiple C96_distributes C96_associative C96_commutative_refuted C96_short_operand",
"proved for all histories and sequences; states after a second initialize, assignment of an empty sequence and commutativity are refuted")
m("C97","partial","C97_check C97_check_exact C97_check_negative C97_zero C97_zero_is_optimal C97_sign_refuted",
"proved for all problems and points, with JacobiSVD::solve assumed to be a least squares solver at the call (premise of the theorem); that zero means optimal is refuted")
