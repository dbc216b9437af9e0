{
 "claims": [
  {
   "property": "C01",
   "status": "proved",
   "theorems": [
    "C01_output_within_bounds",
    "C01_upper_bound_always"
   ],
   "note": "For an arbitrary algorithm and module state."
  },
  {
   "property": "C02",
   "status": "proved",
   "theorems": [
    "C02_clip_leaves_inside_alone",
    "C02_clip_idempotent",
    "C02_clip_nearest",
    "C02_clip_total"
   ],
   "note": ""
  },
  {
   "property": "C03",
   "status": "proved",
   "theorems": [
    "C03_explicit_asif_info_agrees_with_history",
    "C03_implicit_asif_info_agrees_with_history",
    "C03_info_agrees_with_history",
    "C03_discrete_info_agrees_with_history"
   ],
   "note": "Simplex, discrete, explicit and implicit ASIF modules; every history."
  },
  {
   "property": "C04",
   "status": "proved",
   "theorems": [
    "C04_disabled_passthrough"
   ],
   "note": ""
  },
  {
   "property": "C05",
   "status": "partial",
   "theorems": [
    "C05_explicit_asif_reset",
    "C05_implicit_asif_reset",
    "C05_discrete_reset",
    "C05_simplex_reset_refuted",
    "C05_simplex_reset_partial"
   ],
   "note": "Holds for discrete, explicit and implicit ASIF modules. For latching simplex modules the full statement is refuted (latched_elapsed survives reset) and the exact condition under which it holds is proved."
  },
  {
   "property": "C06",
   "status": "proved",
   "theorems": [
    "C06_explicit_asif_reported_values",
    "C06_implicit_asif_reported_values",
    "C06_reported_values",
    "C06_initially_empty",
    "C06_discrete_reported_values"
   ],
   "note": "Simplex, discrete, explicit and implicit ASIF modules; every history."
  },
  {
   "property": "C07",
   "status": "proved",
   "theorems": [
    "C07_selected_constraints",
    "C07_empty_selection_fails",
    "C07_only_membership_matters"
   ],
   "note": ""
  },
  {
   "property": "C08",
   "status": "proved",
   "theorems": [
    "C08_explicit_asif_assignments",
    "C08_implicit_asif_assignments",
    "C08_explicit_asif_present_values_only",
    "C08_implicit_asif_present_values_only",
    "C08_discrete_present_values_only",
    "C08_simplex_present_values_only",
    "C08_assignments_last_value_counts"
   ],
   "note": "Simplex, discrete, explicit and implicit ASIF modules, direct inequalities included."
  },
  {
   "property": "C09",
   "status": "partial",
   "theorems": [
    "C09_explicit_asif_failing_call",
    "C09_implicit_asif_failing_call",
    "C09_failing_call",
    "C09_shape_mismatch_refuted",
    "C09_discrete_failing_call"
   ],
   "note": "Simplex, discrete, explicit and implicit ASIF modules. Holds when the bounds fit the control; with mismatched shapes the failing call does record a new actual control (C09_shape_mismatch_refuted)."
  },
  {
   "property": "C10",
   "status": "proved",
   "theorems": [
    "C10_explicit_switching"
   ],
   "note": ""
  },
  {
   "property": "C11",
   "status": "proved",
   "theorems": [
    "C11_latch_duration"
   ],
   "note": ""
  },
  {
   "property": "C12",
   "status": "proved",
   "theorems": [
    "C12_short_window",
    "C12_accepts_iff_foreseen_safe",
    "C12_returning_call"
   ],
   "note": ""
  },
  {
   "property": "C13",
   "status": "proved",
   "theorems": [
    "C13_implicit_asif_restores_controller",
    "C13_lookahead_restores_controller",
    "C13_call_makes_at_most_one_request",
    "C13_exception_disturbs"
   ],
   "note": ""
  },
  {
   "property": "C14",
   "status": "proved",
   "theorems": [
    "C14_explicit_safe_for_ever",
    "C14_loop_runs"
   ],
   "note": ""
  },
  {
   "property": "C15",
   "status": "partial",
   "theorems": [
    "C15_out_of_bounds_refuted",
    "C15_out_of_bounds_partial"
   ],
   "note": "Refuted: the monitor predicts with the unclipped control. Partial version under an extra assumption."
  },
  {
   "property": "C16",
   "status": "proved",
   "theorems": [
    "C16_accepted_control_has_plan",
    "C16_safe_while_plan_lasts",
    "C16_implicit_safe_for_ever"
   ],
   "note": ""
  },
  {
   "property": "C17",
   "status": "proved",
   "theorems": [
    "C17_explicit_asif_disabled_ignored",
    "C17_discrete_disabled_ignored",
    "C17_implicit_asif_disabled_ignored",
    "C17_simplex_disabled_ignored"
   ],
   "note": "Simplex, explicit and implicit ASIF, and discrete modules."
  },
  {
   "property": "C18",
   "status": "proved",
   "theorems": [
    "C18_loop_equals_vmap"
   ],
   "note": ""
  },
  {
   "property": "C19",
   "status": "proved",
   "theorems": [
    "C19_program_encodes"
   ],
   "note": ""
  },
  {
   "property": "C20",
   "status": "proved",
   "theorems": [
    "C20_returned_control_meets_barriers"
   ],
   "note": ""
  },
  {
   "property": "C21",
   "status": "proved",
   "theorems": [
    "C21_minimally_invasive",
    "C21_acceptable_unchanged",
    "C21_implicit_minimally_invasive"
   ],
   "note": ""
  },
  {
   "property": "C22",
   "status": "partial",
   "theorems": [
    "C22_minimised_cost_partial",
    "C22_documented_weight_refuted"
   ],
   "note": "Refuted for the QP modules: the weight used is the square root of the scale. The cost really minimised is proved."
  },
  {
   "property": "C23",
   "status": "proved",
   "theorems": [
    "C23_intervening_iff_far",
    "C23_any_solver",
    "C23_discrete_intervening_iff_far",
    "C23_implicit_intervening_iff_far"
   ],
   "note": ""
  },
  {
   "property": "C24",
   "status": "proved",
   "theorems": [
    "C24_infeasible_handling",
    "C24_warning_means_infeasible",
    "C24_feasible_call",
    "C24_implicit_warning_means_infeasible",
    "C24_implicit_infeasible_handling"
   ],
   "note": ""
  },
  {
   "property": "C25",
   "status": "partial",
   "theorems": [
    "C25_causes_of_solved_call_partial",
    "C25_stale_causes_refuted",
    "C25_implicit_causes_of_solved_call_partial"
   ],
   "note": "Proved for solved calls (explicit ASIF, and implicit ASIF with default subsampling); refuted after an infeasible call, where stale causes stay."
  },
  {
   "property": "C26",
   "status": "partial",
   "theorems": [
    "C26_explicit_names",
    "C26_implicit_misattribution_refuted",
    "C26_implicit_missing_name_refuted"
   ],
   "note": "Explicit ASIF proved. Implicit ASIF: holds with default subsampling (C25_implicit_causes_of_solved_call_partial); refuted with subsampling (wrong name reported, or IndexError)."
  },
  {
   "property": "C27",
   "status": "proved",
   "theorems": [
    "C27_slack_always_solvable"
   ],
   "note": ""
  },
  {
   "property": "C28",
   "status": "proved",
   "theorems": [
    "C28_stays_safe",
    "C28_recovers"
   ],
   "note": "For every differentiable trajectory; barrier inequality as in the QP rows with the default negative bias."
  },
  {
   "property": "C29",
   "status": "proved",
   "theorems": [
    "C29_polynomial_value",
    "C29_valid_strengthener",
    "C29_negative_default"
   ],
   "note": ""
  },
  {
   "property": "C30",
   "status": "partial",
   "theorems": [
    "C30_documented_chain",
    "C30_degree_one_refuted",
    "C30_chain_keeps_safe"
   ],
   "note": "Chain, logged value and parameters proved for every degree >= 2; construction with degree one refuted (UnboundLocalError)."
  },
  {
   "property": "C31",
   "status": "proved",
   "theorems": [
    "C31_trajectory",
    "C31_recurrence",
    "C31_calls_look_ahead",
    "C31_window_below_a_step"
   ],
   "note": ""
  },
  {
   "property": "C32",
   "status": "proved",
   "theorems": [
    "C32_program_encodes",
    "C32_default_selects_every_point",
    "C32_default_enforced_everywhere"
   ],
   "note": ""
  },
  {
   "property": "C33",
   "status": "partial",
   "theorems": [
    "C33_selected_points_partial",
    "C33_default_check_as_documented_partial",
    "C33_documented_point_missed_refuted",
    "C33_unsafe_point_accepted_refuted"
   ],
   "note": "Refuted: the point number num_check_all is never checked. The selection as coded is proved."
  },
  {
   "property": "C34",
   "status": "partial",
   "theorems": [
    "C34_slack_never_works_refuted"
   ],
   "note": "Refuted: every call of an implicit module with a slack variable raises."
  },
  {
   "property": "C35",
   "status": "proved",
   "theorems": [
    "C35_program",
    "C35_enforced"
   ],
   "note": ""
  },
  {
   "property": "C36",
   "status": "proved",
   "theorems": [
    "C36_sequence_safe",
    "C36_closed_loop",
    "C36_linear_strengthening"
   ],
   "note": "Solver assumed to keep its constraints up to a tolerance; hard constraints; bounds that are numbers."
  },
  {
   "property": "C37",
   "status": "partial",
   "theorems": [
    "C37_failure_handling",
    "C37_bounds_partial",
    "C37_per_element_bounds_refuted"
   ],
   "note": "Failure handling proved. Bounds: numbers are applied as documented; per-element bounds are refuted (every call raises ValueError)."
  },
  {
   "property": "C38",
   "status": "proved",
   "theorems": [
    "C38_cascade_composes",
    "C38_cascade_flag",
    "C38_last_member_bounds"
   ],
   "note": ""
  },
  {
   "property": "C39",
   "status": "partial",
   "theorems": [
    "C39_cascade_reset_refuted",
    "C39_cascade_reset_partial"
   ],
   "note": "Refuted for cascades: reset does not reach members."
  },
  {
   "property": "C40",
   "status": "proved",
   "theorems": [
    "C40_explicit_state_request_is_pure",
    "C40_save_restore",
    "C40_reset",
    "C40_bad_generator",
    "C40_request_advances",
    "C40_unsupported_state",
    "C40_supported_state"
   ],
   "note": ""
  },
  {
   "property": "C41",
   "status": "partial",
   "theorems": [
    "C41_max_and_min_limits",
    "C41_magnitude_limit",
    "C41_negative_magnitude_refuted",
    "C41_true_gradients"
   ],
   "note": "Magnitude limits for non-negative limit values; a negative limit acts as its absolute value (C41_negative_magnitude_refuted)."
  },
  {
   "property": "C42",
   "status": "partial",
   "theorems": [
    "C42_speed_bound",
    "C42_planar_speed_bound",
    "C42_conservative_with_margin",
    "C42_not_too_strict",
    "C42_no_margin_refuted"
   ],
   "note": "Holds with the documented margin v1*sqrt(delta) that the differentiable norm needs; without it refuted (C42_no_margin_refuted)."
  },
  {
   "property": "C43",
   "status": "partial",
   "theorems": [
    "C43_reported_distance",
    "C43_chief_collision_braking",
    "C43_chief_collision_any_braking",
    "C43_chief_collision_tight",
    "C43_deputy_collision_braking",
    "C43_max_distance_braking",
    "C43_violated_position_accepted_refuted"
   ],
   "note": "Braking proved for states that satisfy the position constraint. Refuted as stated without that: inside the radius and moving out the value is positive."
  },
  {
   "property": "C44",
   "status": "proved",
   "theorems": [
    "C44_continuous_model",
    "C44_docking_model",
    "C44_control_shape",
    "C44_exact_flow",
    "C44_solves_the_equations",
    "C44_steps_compose"
   ],
   "note": ""
  },
  {
   "property": "C45",
   "status": "partial",
   "theorems": [
    "C45_psm_is_drift_distance",
    "C45_deputy_psm_is_drift_distance",
    "C45_deputy_array_refuted"
   ],
   "note": "The values are the drift distances, proved; the array form for the deputy constraint always raises (C45_deputy_array_refuted)."
  },
  {
   "property": "C46",
   "status": "partial",
   "theorems": [
    "C46_continuous_and_delta_v_agree_partial",
    "C46_discrete_direction_refuted"
   ],
   "note": "Continuous and delta-v modules agree; refuted for the discrete module, which turns the sun the other way."
  },
  {
   "property": "C47",
   "status": "partial",
   "theorems": [
    "C47_padding_partial",
    "C47_length_seven_refuted",
    "C47_sun_stops_for_ever_refuted"
   ],
   "note": "Six-entry and complete states proved. Refuted: seven entries become nine, and the sun stays stopped for all later calls."
  },
  {
   "property": "C48",
   "status": "proved",
   "theorems": [
    "C48_each_deputy_separately"
   ],
   "note": ""
  },
  {
   "property": "C49",
   "status": "partial",
   "theorems": [
    "C49_each_deputy_with_its_view_partial",
    "C49_flag_never_set",
    "C49_flag_refuted"
   ],
   "note": "Slices, views and order proved; the flag is never set (C49_flag_refuted)."
  },
  {
   "property": "C50",
   "status": "partial",
   "theorems": [
    "C50_history_partial",
    "C50_latch",
    "C50_latched_for_ever",
    "C50_only_the_end_counts",
    "C50_detection_call_refuted",
    "C50_switching_call_refuted",
    "C50_reset_refuted"
   ],
   "note": "Exact behaviour over all histories proved. Refuted: the detecting call returns the desired control, adds the error once per violating forecast, and reset does not unlatch."
  },
  {
   "property": "C51",
   "status": "partial",
   "theorems": [
    "C51_safe_set",
    "C51_exact_braking_invariant",
    "C51_exact_braking_all_times",
    "C51_switching_safe_for_ever",
    "C51_euler_refuted",
    "C51_euler_braking_partial",
    "C51_heavy_refuted",
    "C51_optimization_always_feasible",
    "C51_optimization_safe_for_ever",
    "C51_switching_loop_runs"
   ],
   "note": "Proved for exact integration with mass one (every step size and number of steps, the closed loop of the switching module, feasibility and continuous-time safety of the optimisation module). Refuted for the default Euler integration, which loses dt^2 of the constraint value at every braking step (C51_euler_refuted, with the exact bound on the overshoot in C51_euler_braking_partial), and for masses above one."
  },
  {
   "property": "C52",
   "status": "proved",
   "theorems": [
    "C52_one_step",
    "C52_one_step_as_episode",
    "C52_recorded_history",
    "C52_number_of_steps",
    "C52_episode_ends",
    "C52_endless_without_progress"
   ],
   "note": "Time is exact; numpy's accumulated rounding of current_time is not modelled. run_one_step is an episode of one step from the next sample, safe or not (C52_one_step)."
  },
  {
   "property": "C53",
   "status": "proved",
   "theorems": [
    "C53_episode_starts_safe",
    "C53_first_safe_sample",
    "C53_gives_up",
    "C53_sampler_raises",
    "C53_cases_complete",
    "C53_not_constraint_based"
   ],
   "note": ""
  },
  {
   "property": "C54",
   "status": "partial",
   "theorems": [
    "C54_no_verdict_refuted",
    "C54_verdict_partial",
    "C54_rows"
   ],
   "note": "Refuted for every module with a constraint: the run calls the constraint and its phi without the required params and raises TypeError (C54_no_verdict_refuted). Proved for modules without constraints, and the rows of the test are proved to be the runs' verdicts (C54_rows)."
  },
  {
   "property": "C55",
   "status": "proved",
   "theorems": [
    "C55_velocity_feedback",
    "C55_position_independent_and_zero_at_rest"
   ],
   "note": ""
  },
  {
   "property": "C56",
   "status": "proved",
   "theorems": [
    "C56_library_modules",
    "C56_recorded_controls_unchanged",
    "C56_programs_see_values"
   ],
   "note": "For every module whose compute_filtered_control modifies no existing array; the simplex and ASIF modules are shown to be such (C56_library_modules). C56_programs_see_values justifies treating arrays as values in the other models."
  },
  {
   "property": "C57",
   "status": "partial",
   "theorems": [
    "C57_monitor_exact",
    "C57_nan_passes_refuted",
    "C57_clip_nan_iff",
    "C57_clip_numbers_partial",
    "C57_call_partial",
    "C57_history_partial",
    "C57_held_ignores_desired",
    "C57_nan_step_refuted",
    "C57_nan_step_survives_reset"
   ],
   "note": "Refuted: values that are not a number count as safe and pass the bounds (C57_nan_passes_refuted, C57_clip_nan_iff), and one step size that is not a number makes a hold permanent (C57_nan_step_refuted, C57_nan_step_survives_reset). Proved: what the monitor and clipping do on every IEEE value; in every history of a module with latch, numbers, infinite ones included, are answered with numbers within the bounds (C57_history_partial)."
  },
  {
   "property": "C58",
   "status": "partial",
   "theorems": [
    "C58_keep_out_acceleration_available",
    "C58_radial_acceleration",
    "C58_max_distance_deceleration_refuted"
   ],
   "note": "Proved for the collision constraint; refuted for the maximum distance constraint (centrifugal term left out)."
  },
  {
   "property": "C59",
   "status": "partial",
   "theorems": [
    "C59_short_window_refuted",
    "C59_long_window_partial"
   ],
   "note": "Refuted in general: for every window there is a state at which the module accepts full braking without intervening and from which no run avoids passing zero. Proved for runs whose speed stays below the braking capacity of the window."
  },
  {
   "property": "C60",
   "status": "proved",
   "theorems": [
    "C60_hypercube_in_order",
    "C60_hypercube_exhausted",
    "C60_parametric_components",
    "C60_parametric_unknown"
   ],
   "note": ""
  },
  {
   "property": "C61",
   "status": "partial",
   "theorems": [
    "C61_later_calls_do_not_change_info",
    "C61_modifying_info_refuted"
   ],
   "note": "Snapshot against everything but modification of the dictionary's own arrays; these are the module's own, so modifying them changes the recorded controls (C61_modifying_info_refuted)."
  },
  {
   "property": "C62",
   "status": "partial",
   "theorems": [
    "C62_bounds_fixed_partial",
    "C62_array_bounds_refuted"
   ],
   "note": "Proved for numbers and lists. Refuted for arrays, which are kept by reference (C62_array_bounds_refuted)."
  },
  {
   "property": "C63",
   "status": "partial",
   "theorems": [
    "C63_reported_value",
    "C63_value_is_barrier",
    "C63_value_exists_partial",
    "C63_no_value_refuted",
    "C63_stays_out",
    "C63_braking_keeps_out"
   ],
   "note": "Proved wherever the value exists. Refuted: straight in line with the sun, and with the sun at the very edge of the view, the value is nan, which counts as safe (C63_no_value_refuted)."
  },
  {
   "property": "C64",
   "status": "partial",
   "theorems": [
    "C64_braking_available_partial",
    "C64_reduced_thrust_refuted"
   ],
   "note": "Proved when the bounds leave at least 1 N in each direction. Refuted for smaller bounds: the braking acceleration always assumes 1 N (C64_reduced_thrust_refuted)."
  },
  {
   "property": "C65",
   "status": "partial",
   "theorems": [
    "C65_docking_2d",
    "C65_docking_3d",
    "C65_inspection",
    "C65_deputies_partial",
    "C65_deputy_drift_refuted"
   ],
   "note": "Docking and one-deputy inspection proved in full. Several deputies: the drift condition uses chief_radius + deputy_radius instead of 2 * deputy_radius, proved with that distance and refuted with the right one (C65_deputy_drift_refuted)."
  },
  {
   "property": "C66",
   "status": "partial",
   "theorems": [
    "C66_getters",
    "C66_setters_refuted",
    "C66_short_state_refuted"
   ],
   "note": "Reading is proved. Assigning always raises TypeError (C66_setters_refuted), and wrapping a state of six entries reads z_dot as sun_angle and delta_v (C66_short_state_refuted)."
  },
  {
   "property": "C67",
   "status": "proved",
   "theorems": [
    "C67_ready",
    "C67_names"
   ],
   "note": ""
  },
  {
   "property": "C68",
   "status": "proved",
   "theorems": [
    "C68_feasible_nearby_keeps_safe",
    "C68_docking_3d_always_feasible",
    "C68_docking_2d_always_feasible",
    "C68_docking_3d_keeps_limits",
    "C68_docking_2d_keeps_limits"
   ],
   "note": ""
  },
  {
   "property": "C69",
   "status": "proved",
   "theorems": [
    "C69_exact_solver_exists",
    "C69_answer_independent_of_solver",
    "C69_some_solver_serves_all"
   ],
   "note": ""
  },
  {
   "property": "C70",
   "status": "partial",
   "theorems": [
    "C70_compiled_asif_same_partial",
    "C70_compiled_simplex_same_partial",
    "C70_assignments_ignored",
    "C70_assignment_refuted",
    "C70_compiled_implicit_asif_same_partial"
   ],
   "note": "Proved for explicit ASIF, implicit ASIF (stateless backup controllers) and simplex modules and the documented operations (calls, reset, enable, parameters and enabled flags). Refuted when other attributes are assigned after a call: they are ignored (C70_assignments_ignored, C70_assignment_refuted)."
  },
  {
   "property": "C71",
   "status": "partial",
   "theorems": [
    "C71_stateless_controller_same_partial",
    "C71_stateful_explicit_refuted",
    "C71_stateful_implicit_refuted",
    "C71_stateless_implicit_asif_same_partial",
    "C71_stateful_implicit_asif_refuted"
   ],
   "note": "Proved for controllers without internal state, in simplex and implicit ASIF modules. Refuted for controllers with state: every call that must intervene raises, and every call of an implicit module (C71_stateful_explicit_refuted, C71_stateful_implicit_refuted, C71_stateful_implicit_asif_refuted)."
  },
  {
   "property": "C72",
   "status": "proved",
   "theorems": [
    "C72_limited_accuracy",
    "C72_exact_is_accurate"
   ],
   "note": "Proved for explicit modules; the exact solver contract is the case of tolerance zero."
  },
  {
   "property": "C73",
   "status": "proved",
   "theorems": [
    "C73_held_control",
    "C73_bias_absorbs",
    "C73_exact_when_rate_keeps",
    "C73_long_period_refuted"
   ],
   "note": "Proved for every constraint with a strengthening term of at most a times its value; C73_long_period_refuted shows that the condition a T <= 1 in the statement is needed."
  },
  {
   "property": "C74",
   "status": "proved",
   "theorems": [
    "C74_lookahead",
    "C74_whole_steps",
    "C74_decimal_refuted",
    "C74_zero_step",
    "C74_not_finite"
   ],
   "note": "For the doubles python reads. Decimal settings can suggest one step more (C74_decimal_refuted)."
  },
  {
   "property": "C75",
   "status": "partial",
   "theorems": [
    "C75_latch_holds",
    "C75_latch_releases",
    "C75_latch_ends_partial",
    "C75_endless_latch_refuted",
    "C75_decimal_refuted"
   ],
   "note": "Duration proved up to one rounding per call for all step sizes. Ending proved for latch times up to 2^50 of the shortest step; refuted beyond, where the accumulated time can stop growing (C75_endless_latch_refuted). Ten calls of 0.1 do not reach 1.0 (C75_decimal_refuted)."
  },
  {
   "property": "C76",
   "status": "partial",
   "theorems": [
    "C76_episode",
    "C76_episode_ends_partial",
    "C76_decimal_refuted",
    "C76_endless_episode_refuted"
   ],
   "note": "Duration proved up to one rounding per step. Ending proved for simulation times up to 2^50 steps; refuted beyond (C76_endless_episode_refuted). Ten steps of 0.1 do not reach 1.0 (C76_decimal_refuted)."
  },
  {
   "property": "C77",
   "status": "partial",
   "theorems": [
    "C77_thrust_opposes_velocity",
    "C77_planar_thrust_opposes_velocity",
    "C77_energy",
    "C77_rest_is_left_refuted"
   ],
   "note": "For every solution of the Riccati equation (scipy's solver is an oracle with that contract), the thrust before clipping acts strictly against any non-zero velocity, in three dimensions and in the plane, and takes kinetic energy out of the motion (C77_thrust_opposes_velocity, C77_planar_thrust_opposes_velocity, C77_energy). Coming to rest and staying there is refuted as coded: off the chief's orbit a spacecraft at rest is moving again at once, whatever the gain (C77_rest_is_left_refuted)."
  },
  {
   "property": "C78",
   "status": "proved",
   "theorems": [
    "C78_docking_2d",
    "C78_docking_3d",
    "C78_inspection",
    "C78_discrete_inspection",
    "C78_deputies",
    "C78_integrator",
    "C78_default_bounds",
    "C78_default_docking",
    "C78_default_inspection"
   ],
   "note": "Tables of all constraints of the library's modules: the barrier function in physical terms (SpecTable.v), the coefficients of the strengthening polynomial and the margin. The sun's row says nothing where jax gives nan (the chief's place, the line through chief and sun, the edge of the view)."
  },
  {
   "property": "C79",
   "status": "partial",
   "theorems": [
    "C79_documented_default_partial",
    "C79_documented_default_refuted"
   ],
   "note": "Refuted in full: five classes (relative velocity in space, sun keep-out zone, chief and deputy collision, maximum distance) use another default polynomial than documented (C79_documented_default_refuted). For the other nine the default is the documented one (C79_documented_default_partial)."
  },
  {
   "property": "C80",
   "status": "partial",
   "theorems": [
    "C80_explicit",
    "C80_disabled_refuted",
    "C80_implicit",
    "C80_discrete"
   ],
   "note": "Raising is proved for all three kinds of module (discrete: for a solver that lets exceptions of its functions through). Refuted: a disabled constraint without strengthening function makes every call of an ASIF module raise, although the module without it returns a control (C80_disabled_refuted)."
  },
  {
   "property": "C81",
   "status": "partial",
   "theorems": [
    "C81_always_feasible_refuted",
    "C81_collision_partial",
    "C81_three_thrusts",
    "C81_speed_partial"
   ],
   "note": "Refuted in full: with the default settings the program is infeasible in a state where all eight constraints hold (C81_always_feasible_refuted; the maximum distance condition leaves out the centrifugal term of sideways motion). With the collision constraint as the only enabled one there is always an admissible control (C81_collision_partial). With any of the four speed constraints enabled and no others there is one too, in states within range and within the component limits and with thrusters stronger than the drift (C81_speed_partial)."
  },
  {
   "property": "C82",
   "status": "partial",
   "theorems": [
    "C82_values_partial",
    "C82_delta_v_limit_refuted"
   ],
   "note": "Refuted: the option is stored and never read; no constraint of the two modules depends on the delta-v entry (C82_values_partial, without the second order constraint), and default settings meet all constraints at any delta-v (C82_delta_v_limit_refuted). The module that does enforce the limit is C50."
  },
  {
   "property": "C83",
   "status": "partial",
   "theorems": [
    "C83_docking_accepted",
    "C83_accepted",
    "C83_honoured",
    "C83_unknown_rejected",
    "C83_position_rejected",
    "C83_nothing_lost",
    "C83_constraint_accepted",
    "C83_constraint_honoured",
    "C83_constraint_unknown_ignored",
    "C83_constraint_refuted",
    "C83_by_position",
    "C83_resolution_order",
    "C83_library_resolution"
   ],
   "note": "Proved for all modules and sample tests, with an exact characterisation of the accepted keyword dictionaries, and for user-defined subclasses. Refuted for constraints: a keyword that is no option of the constraint is dropped without notice (C83_constraint_refuted, C83_constraint_unknown_ignored); options of a constraint that do exist are honoured. The model covers argument binding and the integration method check; an object accepted here may still be rejected by other checks (bounds: C01)."
  },
  {
   "property": "C84",
   "status": "partial",
   "theorems": [
    "C84_own_deputy_partial",
    "C84_same_deputy",
    "C84_default_refuted",
    "C84_short_state_stops_the_sun",
    "C84_reset_leaves_deputies"
   ],
   "note": "Proved for combined modules given a deputies' module of their own, for all programs. Refuted for modules built with the default, which all share one object (C84_default_refuted); C84_same_deputy says exactly what sharing means."
  },
  {
   "property": "C85",
   "status": "partial",
   "theorems": [
    "C85_matching_partial",
    "C85_mismatch_raises",
    "C85_default_refuted"
   ],
   "note": "Proved: with a deputies' module built for the same number, shapes stop no call (C85_matching_partial; other reasons to raise are left open by design). Refuted for the default deputies' module and every number of deputies other than five (C85_default_refuted, for all constraints and solvers)."
  },
  {
   "property": "C86",
   "status": "partial",
   "theorems": [
    "C86_functions",
    "C86_disabled",
    "C86_listed",
    "C86_documented_partial",
    "C86_undocumented",
    "C86_documented_refuted",
    "C86_dictionary_partial",
    "C86_dictionary_refuted",
    "C86_built_in_sequence",
    "C86_sequence_otherwise_unaffected"
   ],
   "note": "Listed functions, disabled compilation and the documented defaults are proved for all kinds of modules and dictionaries. Refuted: the implicit ASIF compiles two functions documented as not compiled, and writes to the caller's dictionary, with the effect on later modules characterised exactly (C86_built_in_sequence)."
  },
  {
   "property": "C87",
   "status": "partial",
   "theorems": [
    "C87_own_controller_partial",
    "C87_stateless_shared_partial",
    "C87_library_controllers_stateless",
    "C87_shared_refuted",
    "C87_reset_reaches_all",
    "C87_optimising_users"
   ],
   "note": "Proved for modules with a controller of their own, for every controller, and for modules sharing stateless controllers, as all of the library are (C87_library_controllers_stateless); returning calls of implicit ASIF modules never disturb any controller. Refuted for simplex modules that share a controller with state (C87_shared_refuted)."
  },
  {
   "property": "C88",
   "status": "proved",
   "theorems": [
    "C88_planar_stop_keeps_limits",
    "C88_spatial_stop_keeps_limits",
    "C88_gain_is_determined",
    "C88_gain_exists"
   ],
   "note": "Planar and spatial, for the default mass, bounds and limits, mean motions from 0 to 0.00105 and distances up to 15 km (C88_planar_stop_keeps_limits, C88_spatial_stop_keeps_limits). The gain is bounded for every positive semidefinite solution of the Riccati equation; that there is exactly one is proved too (C88_gain_exists), and that the controller is the same with any solver for every mass and mean motion (C88_gain_is_determined)."
  },
  {
   "property": "C89",
   "status": "proved",
   "theorems": [
    "C89_spatial_switching",
    "C89_planar_switching",
    "C89_between_calls_refuted"
   ],
   "note": "Both kinds of module, planar and spatial, with the commands held over steps of up to one second (C89_spatial_switching, C89_planar_switching). That the limits also hold between the calls while a desired control is let through is not part of the claim and is false: C89_between_calls_refuted gives a flight."
  },
  {
   "property": "C90",
   "status": "partial",
   "theorems": [
    "C90_equation",
    "C90_feedback",
    "C90_no_solution_refuted",
    "C90_construction_refuted",
    "C90_any_gain_partial",
    "C90_coasting_partial",
    "C90_ellipse_is_free"
   ],
   "note": "Refuted: the equation has no solution for any mass and mean motion, and every matrix misses it by the full state weight in some direction (C90_no_solution_refuted), so with a solver that only returns solutions the module cannot be built (C90_construction_refuted). Proved for every gain: no thrust on natural ellipses, which are kept, and the exact switching condition there."
  },
  {
   "property": "C91",
   "status": "partial",
   "theorems": [
    "C91_uncompiled_call_partial",
    "C91_first_call_decides",
    "C91_steady_partial",
    "C91_two_rates_refuted",
    "C91_short_state_refuted"
   ],
   "note": "Exact: uncompiled, the rate is the attribute, set to 0 by the first short state; compiled, the first call with a step size fixes the rate for that step size and state length for ever (C91_first_call_decides). The property holds without short states or with a rate of zero (C91_steady_partial). Refuted otherwise: a compiled module gives a short state the moving sun after a complete one, and equal complete states different rates for different step sizes."
  },
  {
   "property": "C92",
   "status": "partial",
   "theorems": [
    "C92_documented_operations_partial",
    "C92_assignments_ignored_refuted",
    "C92_closer_wall_refuted"
   ],
   "note": "The full property is refuted: jit_enable does not reach DiscreteCBFConstraint, which always compiles; once a call with all constraints enabled has returned, no assignment of a setting has an effect on any later call of the same shape (C92_assignments_ignored_refuted, C92_closer_wall_refuted). Proved: for all histories of the documented operations the compiled module is the plain model, answers and reported data alike (C92_documented_operations_partial)."
  },
  {
   "property": "C93",
   "status": "partial",
   "theorems": [
    "C93_displayed_once",
    "C93_one_warning_per_process_refuted",
    "C93_first_failure_partial",
    "C93_silent_failure_refuted",
    "C93_discrete_partial"
   ],
   "note": "Refuted: under python's default filters a warning is displayed once per text and line (C93_displayed_once, exact), and all modules that solve quadratic programs share one text, so one warning is displayed per process (C93_one_warning_per_process_refuted); a later failure leaves the same control and info dictionary as an accepted desired control (C93_silent_failure_refuted). Proved: the first failure is displayed and solver_exception always raises (C93_first_failure_partial); the discrete module is displayed once per solver message (C93_discrete_partial). That python drops repeated warnings is an assumption about the standard library, modelled in py_warn."
  },
  {
   "property": "C94",
   "status": "partial",
   "theorems": [
    "C94_flight_partial",
    "C94_default_flight_partial",
    "C94_whole_module_partial",
    "C94_long_steps_refuted",
    "C94_coasting_refuted"
   ],
   "note": "Refuted for long steps: with the default arguments and steps of 15 s one accepted call ends beyond the velocity limit (C94_long_steps_refuted), and with steps of 4 s the coasting constraint alone is lost (C94_coasting_refuted). Proved: for all flights with short steps (an explicit bound; 4 s with the default arguments and 12 kg) and a solver tolerance of at most 1e-6 the velocity, speed, range and collision limits hold at every call (C94_flight_partial, C94_default_flight_partial); with the default arguments, 12 kg and steps of up to 1 s also the passively safe maneuver and the sun's cone, as long as the sun's constraint has a value at every state visited (C94_whole_module_partial). Missing: the last two for other arguments or longer steps."
  },
  {
   "property": "C95",
   "status": "partial",
   "theorems": [
    "C95_overshoot_partial",
    "C95_stopping_partial",
    "C95_short_window_refuted",
    "C95_own_steps_refuted",
    "C95_exact_steps_refuted",
    "C95_exact_stopping_partial",
    "C95_between_points_refuted"
   ],
   "note": "Refuted: for every window, step and mass there is a state with a safe prediction in which no control meets the condition, since the vehicle is still approaching at the end of the window; the call then raises SolverError or lets the clipped desired control through with a warning (C95_short_window_refuted). For every step the module lets a vehicle slowly receding just before the target accelerate fully, and its own step after that passes it whatever the control (C95_own_steps_refuted); with exact steps, at rest, already the same step does (C95_exact_steps_refuted). The distances are of the order of dt^2/m. With exact steps there are states in which the vehicle stops within the window and all predicted points are safe, but the flight passes zero between two of them and no control meets the condition (C95_between_points_refuted). Proved, for the default Euler prediction: if the last predicted point is at rest or receding, full braking meets the condition and the call neither fails nor warns (C95_stopping_partial). With exact steps the same holds if all predicted points keep a margin of dt/(20 m) (C95_exact_stopping_partial). A flight of any length by Euler steps, without warnings, with short steps (an explicit bound) and stoppable within the window at every call never gets further past zero than dt/(10 m) (C95_overshoot_partial). Missing: flights through states that cannot be stopped within the window, and flights by exact steps."
  }
 ]
}