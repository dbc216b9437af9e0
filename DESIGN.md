# Design: a machine-checked model of run-time-assurance

This folder holds a Rocq (Coq 8.16.1) model of the python library in /repo
(act3-ace/run-time-assurance) and proofs of the properties in
`properties.jsonl`.  The model is in `rocq/theories`.

## 1. Trusted base

* Coq's kernel (checked again by `coqchk`).
* The axioms of the standard library that `Print Assumptions` lists under each
  property theorem.  They come from the real numbers and their logic:
  `ClassicalDedekindReals.sig_forall_dec`, `ClassicalDedekindReals.sig_not_dec`,
  `FunctionalExtensionality.functional_extensionality_dep`, and, where
  derivatives from Coquelicot or case splits on real propositions are used,
  `Classical_Prop.classic`.  The theorems on the existence of a solver (C69) also use
  choice: `RelationalChoice.relational_choice` and
  `ClassicalUniqueChoice.dependent_unique_choice`.  Section 5 lists them per theorem.
  No axiom of ours.
* The reading of /repo recorded in the comments of the model files: every
  definition cites file and lines, and says where it simplifies.

## 2. How the code is modelled

* Scalars are Coq reals `R`.  Floating-point rounding is not modelled, except in
  the separate special-values model for C57.
* Vectors are `list R`, matrices lists of rows; numpy broadcasting of a scalar or
  one-element bound is modelled for clipping, and shape errors are values.
* Exceptions are values.  Methods are functions in a state-and-exception monad
  `M S A := S -> res A * S`: a raised exception keeps the attribute writes made
  before it, as in python.
* Objects are records of their attributes.  The class hierarchy is modelled by
  extension fields: `rta X` (RTAModule), `cb Y` (ConstraintBasedRTA), simplex and
  ASIF extensions.
* External code enters as function arguments (oracles), never as axioms:
  the plant model `_pred_state` / `.step` of safe_autonomy_simulation (not in
  /repo), user constraint functions, jax gradients and Jacobians, `quadprog.solve_qp`,
  `scipy.optimize.minimize`, the Riccati solution behind LQR gains, the random
  samplers.  Theorems that need a contract for an oracle state it as a hypothesis
  (for example, solve_qp returns a minimiser or reports that there is none).
* `vmap` is taken to preserve meaning (vmap f = map f).  What `jit` captures is modelled apart
  from the rest (`ModelJit.v`, C70, C71), and so is the choice of what is compiled (C86).

* Arrays are values.  Sharing of numpy arrays between caller and module is modelled
  separately (`ModelHeap.v`), and `C56_programs_see_values` shows that a program which
  does not modify the module's arrays observes exactly what the value model says.
* Loops whose number of rounds is not known beforehand (sampling until safe, running an
  episode until the time limit) take a round count and return `None` when it is used up;
  theorems about endings quantify over all counts.

### What is modelled, file by file

| File in /repo/run_time_assurance | Modelled | Not modelled |
|---|---|---|
| rta/base.py | constructor checks of bounds, `filter_control`, `_clip_control`, `generate_info`, `reset`, `enable`; constraint selection, parameters, enabled flags, `update_constraint_values`, loop and vmap evaluation; backup mixin; `CascadedRTA` | pydantic type coercion |
| rta/simplex.py | all of it: explicit and implicit monitors, latch, backup selection | the integration method behind `_pred_state` (an oracle) |
| rta/asif.py | explicit, implicit and discrete modules: QP data, slack, solver call, fallback, causes, names, trajectory, sensitivity, subsampling, SLSQP call and failure handling | `quadprog` and `scipy` themselves (oracles with contracts) |
| constraint.py | values, enable/params/bias/slack attributes, polynomial strengthener, limits, HOCBF chain, discrete constraint | jax differentiation itself: gradients are arguments, shown equal to true derivatives for the limits |
| controller.py | backup controllers, state save and restore, reset | scipy's Riccati solver behind the LQR gains (an oracle with a contract, C77) |
| state.py, utils/utils.py | `to_jnp_array_jit` as identity, `norm_with_delta`, state wrapper fields and size | setting attributes a wrapper class does not have |
| utils/sample_testing.py | data tracking with run_one_step, initial state sampling, safety assurance, default hyper-cube and parametric samplers | the LHS/MCS random numbers (arguments), csv, plots, time measurement |
| zoo/cwh/utils.py | the closed-form solution, complete | |
| zoo/cwh/docking_2d.py, docking_3d.py | relative velocity constraint, backup controllers' law, dynamics matrices, the assembled constraint sets with their default limits, gains and biases, state wrapper fields, constructor options, the switching modules with their own stopping controller | |
| zoo/cwh/inspection_1v1.py, inspection_3d.py | collision, maximum distance, sun (conic) keep-out zone, passive safety, translational dynamics, sun motion, state padding, deputy views, the combined module (also several in one program), the delta-v module, the assembled constraint sets for any number of deputies, default limits and gains, state wrapper fields | a negative braking acceleration (nan in jax, the constructors do not check) |
| zoo/cwh/random_sample_testing.py | through utils/sample_testing.py and the docking modules it passes on; constructor options and defaults (C83) | |
| zoo/integrators/integrator_1d.py | all four modules: constraint, dynamics, backup, prediction | |

### Idealisations to keep in mind

* Real numbers instead of floats.  Only C57 and C74 to C76 are on IEEE numbers: clipping, the
  simplex monitor, the number of lookahead steps, the latch clock and the episode clock.
* `jax.jit` captures python attributes at trace time.  The main model reads attributes at call
  time, as the un-jitted code does.  `ModelJit.v` models the compiled versions of the explicit
  ASIF, the implicit ASIF and the simplex modules and of the backup controllers; C70 and C71 say
  when the two agree.  So theorems about histories of the documented operations hold for the
  jitted path too, except for stateful backup controllers.  The capture of the control bounds is
  not modelled: the model keeps them fixed.
* `solve_ivp` (RK45) is taken to be the exact flow where a theorem says exact integration.
* The default mass and mean motion (M_DEFAULT, N_DEFAULT) are imported from
  safe_autonomy_simulation, which is not in /repo, so their values could not be checked.  Theorems
  and notes that speak of default arguments leave them as variables or assume 12 kg and a mean
  motion of about 0.001 rad/s for the spacecraft; each statement says which.
* Outside C74 to C76, the time accumulated by a latch or an episode and the number of lookahead
  steps are exact; C74 to C76 say by how much rounding can change them.
* Solver contracts (`qp_contract`, `slsqp_contract`) are idealised: exact minimisers for
  the QP (only feasible up to a tolerance in C72 and C73), a tolerance for SLSQP.  Numerical failure of quadprog other than infeasibility is
  outside.

Not modelled at all: printing, csv output and plotting, performance, pickling, thread
safety (the library has none), docs and notebooks, the code under /repo/test.

## 3. Plan per property

Format: what is modelled; how it is proved.

* C01 clip and filter_control for an arbitrary compute function; elementwise order
  reasoning, then induction over API histories; instances for each module class.
* C02 clip; elementwise case analysis; nearest point by sum of squares.
* C03 filter_control, generate_info, reset; invariant over histories.
* C04 filter_control with enable false, for each class; direct.
* C05 reset of base, simplex, implicit ASIF, controller; simulation relation between
  the reset object and a new one.  Expected finding: simplex keeps `latched_elapsed`
  over reset, so the full property is refuted and the exact condition proved.
* C06 update_constraint_values and generate_info; invariant over histories.
* C07 the constructor's filter loop; list induction.
* C08 params and enabled caches; two runs that agree on present values agree on output.
* C09 exceptions keep state; monad reasoning for an arbitrary compute function.
* C10, C11 simplex filter; characterisation of a call; induction on latched calls.
* C12, C13 implicit integrate with save/restore; induction on the number of steps.
* C14, C15, C16 closed loops; induction over desired control sequences; C15 expected
  refuted (the monitor predicts with the unclipped control).
* C17 zero rows and zero values; equivalence with the module without the constraint.
* C18 map versus append loop.
* C19, C20, C21, C23, C24, C25, C26, C27 the QP data, `_optimize`, the final clip,
  with the solver as an oracle with a contract.  Convexity argument for uniqueness.
  C25 expected refuted after an infeasible call.  C26 expected refuted for subsampled
  implicit ASIF.
* C22 objective of the QP versus the documentation; expected refuted (sqrt of the scale).
* C28 mean value theorem on the real line.
* C29 polynomial evaluation; induction on coefficient lists.
* C30 recursion on relative degree; expected refuted for degree one.
* C31, C32, C33, C34 implicit ASIF; induction on trajectory length and index lists.
  C33 expected refuted (point num_check_all is skipped), C34 expected refuted (shape error).
* C35, C36, C37 discrete module with the optimiser as an oracle; C37 per-element bounds
  expected refuted.
* C38, C39 cascade and combined; induction on members; C39 expected refuted.
* C40 controller object; induction on requests.
* C41 limits; real arithmetic and derivatives.
* C42, C43 real analysis of the CWH constraints.
* C44, C45 closed-form CWH solution; derivatives by Coquelicot, trigonometric identities.
* C46, C47 expected refuted in part; exact behaviour proved.
* C48 block structure; induction on the number of deputies.
* C49, C50 combined and delta-v modules; intervening flag (C49) and detection step
  (C50) expected refuted; exact behaviour proved.
* C51 1d integrator, exact and Euler; Euler expected refuted.
* C52, C53, C54 sampling harness; recursion on the number of steps; C54 expected refuted
  (missing argument).
* C55 linear algebra on the masked error vector.
* C56 a small heap model of numpy arrays; separation invariant over interleavings.
* C57 clipping and the monitor on the standard library's `spec_float`; expected refuted.  Histories
  with latch, enabling and resets: ModelFloatRun.v.
* C58 the documented maximum deceleration against the radial dynamics; real analysis.
* C59 the implicit 1d module with a short window; explicit counterexample for every window.
* C60 the initial state samplers; list induction.
* C63 the conic zone's value and reported angle; geometry of a circular cone (signed distance,
  normals), its derivative along a motion, mean value theorem.
* C61, C62 the heap model of C56: the info dictionary's arrays, the bounds' arrays.
* C64 the collision constraint as the constructor builds it, on top of C58; for smaller bounds
  an explicit state on the z axis and a comparison argument for every thrust function.
* C65 the assembled constraint sets; equivalence per constraint (C41-C45, C63), list induction
  over the deputies.
* C66 field tables of the wrappers; arrays are immutable (jax), indices clamp.
* C67 list induction; uniqueness of decimal numerals in the generated names.
* C68 an explicit braking thrust (deceleration along the velocity plus the gravity gradient undone)
  meets every barrier row near the safe set; a joint barrier argument for several constraints (the first
  time any of them turns negative) replaces the assumption of feasibility.
* C69 existence of a minimiser of a positive definite program (compactness), an active set that
  suffices (Farkas-like elimination), uniqueness by strict convexity.  Choice turns the pointwise
  existence into a solver function.

* C70 a cache of compiled versions per signature, each with the attributes it has captured;
  simulation with the invariant that captured and present attributes differ in parameters and flags
  only.  Expected refuted for assignments of other attributes; exact behaviour proved.
* C71 the compiled controller rejects unhashable states; simulation for stateless controllers.
  Expected refuted for stateful ones.
* C72 the rows encode the demands (as for C19), so a solver error of tol is a demand error of tol;
  clipping moves an entry by at most tol.
* C73 mean value theorem on each period for the value minus a parabola, then induction over the
  calls.  Expected refuted without a T <= 1.
* C74 python's division and int() on Flocq's doubles (`ModelTime.v`); rounding is monotone and
  integers below 2^53 are doubles, so no whole step is lost; relative error for the other side.
* C75, C76 the clocks as repeated rounded additions; induction with one relative error per
  addition.  Expected refuted for decimals and where the sum stops growing.
* C77 the gain is built from an oracle's Riccati solution, which is positive definite: where its
  form vanishes the equation says that the state cost vanishes too; the velocity block of a positive
  definite matrix is positive definite, so thrust times velocity is negative.
* C78 tables in SpecTable.v, one row per constraint; each row is proved from the constraint's own
  definition, with the sun's row from C63 and the drift rows from C45.
* C79 the default strengthener of each class, computed, against the polynomial in its docstring.
  Expected refuted for the classes whose docstring names other coefficients.
* C80 the loop over the constraints raises at the first constraint without strengthener, whatever
  its enabled flag; the caches hold every key, so nothing else can raise before.
* C81 gradients of the collision and maximum distance constraints by calculus; full thrust away from
  the chief meets the collision condition.  Expected refuted in full: the braking acceleration leaves
  out the centrifugal term, so there is a state at the maximum distance with all constraints met
  and no admissible thrust.
* C82 the constraints of the inspection modules as functions of the delta-v entry.  Expected
  refuted: nothing reads the option.
* C83 python's argument binding and the C3 resolution order as functions, one table entry per
  constructor; acceptance and received values of a chain computed symbolically, proved sound for
  all dictionaries by induction over the chain, compared with a table of documented options.
  Expected refuted for constraints: pydantic ignores unknown fields.
* C84 a program with several combined inspection modules: objects by reference, the default
  deputies' module as the object built at import.  Noninterference by a simulation between the full
  program and the one without the other modules' operations.  Expected refuted for default modules.
* C85 the calls that decide on shapes (product with the dynamics matrix, product with the gradient)
  with jax's shape check; everything else in the call arbitrary.  Expected refuted for other
  numbers of deputies than five with the default deputies' module.
* C86 the dictionary of functions to compile as the caller's own object; sequences of constructions
  by induction.  Expected refuted: one constructor writes to it, and two defaults differ from the
  documentation.
* C87 a program with several controllers and modules: a module refers to its controller, whose
  attributes are put into the module's call and taken out again.  Noninterference as for C84; for
  controllers without state by showing that no method changes them.  Expected refuted for shared
  controllers with state.
* C88 the stopping controllers keep the docking limits.  Bounds on the gain that hold for every
  positive semidefinite solution of the Riccati equation: entry by entry in the plane
  (ProofsStop.v), and in space by uniqueness (ProofsUnique.v, two solutions bound each other ever
  more closely) and the reflection in the orbital plane.  Existence by the intermediate value
  theorem (ProofsExist.v).  With these each limit's value rises whenever it is negative, and
  `together` of ProofsDock.v applies.
* C89 flights under the docking task's switching modules: induction over the calls.  A passed control
  leads to a state the module judged safe; for an overruled one a differential inequality bounds
  the controlled motion while the clipped command is held (ProofsHold.v, ProofsHold2.v).
* C90 the gain of the delta-v module.  The integrals of all six state entries are states of the
  regulator; three thrusters cannot steer six integrals, so the Riccati equation has no solution:
  a vector that every thruster is blind to exists by elimination (ProofsGain.v).  Expected refuted.
* C91 the sun's rate under compilation.  _get_state assigns sun_vel, and the compiled program read
  it when its signature was first traced.  A call is shown to be that of a plain explicit module with
  a fixed rate (a simulation that forgets the rate and the traces), and the history decides which.
  Expected refuted for histories with short states.
* C92 compilation in the discrete module.  DiscreteCBFConstraint wraps its function in jit when it
  is built, whatever jit_enable says; step_size is not static there.  ModelDiscJit.v keeps one
  compiled version per constraint and signature and a relation between a compiled and a plain module
  (settings in force) is carried through all histories.  Expected refuted for assignments.
* C93 announcements of failures.  ModelWarn.v puts any number of modules into one process with
  the registry in which python's warnings.warn remembers what it displayed (standard library
  behaviour under the default filters, an assumption; pytest changes it).  Exact law for what is
  displayed, and refuted for every failure but the first.
* C94 flights under the discrete inspection module.  ModelDiscInsp.v is the module's configuration;
  the plant is its own step (exact for CWH, C44).  C36_closed_loop is applied to one constraint
  after the other: the velocity limits bound the level of the range constraint, both bound the
  distance, and that bounds the other levels, so each strengthening function is gentle for short
  steps.  Expected refuted for long steps.  The coasting (PSM) constraint is not gentle at its
  upper levels; there one step cannot lower it by more than 20 m (ProofsDiscInsp2.v).  The sun's
  level is bounded by the distance and the speed through the unit normal of its cone.
* C95 the implicit optimisation module of the integrator.  ModelIntImplicit.v is its configuration;
  SpecIntImplicit.v gives the predicted positions by a recursion on its own.  The sensitivity of
  point j is [1, j dt; 0, 1]; the foremost point decides, and if the vehicle stops within the window
  it has stopped there.  Counterexamples: still approaching at the end, and at rest or
  receding at the start.  For whole flights (PropertiesIntFlight.v): one step moves the
  foremost predicted point by at most what the condition allows plus dt^2 / m, a fact about
  parabolas on integers, so its overshoot stays below dt / (10 m).
* C12 (short window), C40 (supported states): a simulation up to the scratch copy of the controller
  state, over whole histories.

## 4. Files

See section headers in `rocq/_CoqProject`; `Model*.v` are definitions only, `Spec*.v`
the independent specifications, `Proofs*.v` lemmas, `Properties*.v` the property
theorems with `Print Assumptions` and examples.
`ProofsSim.v` is a generic simulation argument; `ExampleTools.v` and `ExampleQP.v` hold
the concrete modules used by the examples.

## 5. Axioms per theorem

What `Print Assumptions` prints, grouped.  All are from Coq's standard library.

<!-- axioms begin -->
* none (closed under the global context):
  C83_docking_accepted, C83_accepted, C83_honoured, C83_unknown_rejected,
  C83_position_rejected, C83_nothing_lost, C83_constraint_accepted,
  C83_constraint_honoured, C83_constraint_unknown_ignored, C83_constraint_refuted,
  C83_by_position, C83_resolution_order, C83_library_resolution, C38_cascade_flag,
  C39_cascade_reset_partial, C40_explicit_state_request_is_pure, C40_save_restore,
  C40_reset, C40_bad_generator, C40_request_advances, C30_degree_one_refuted,
  C45_deputy_array_refuted, C57_monitor_exact, C57_nan_passes_refuted, C57_clip_nan_iff,
  C57_clip_numbers_partial, C57_call_partial, C33_default_check_as_documented_partial,
  C33_documented_point_missed_refuted, C40_unsupported_state, C40_supported_state,
  C52_one_step, C60_hypercube_in_order, C60_hypercube_exhausted, C60_parametric_components,
  C60_parametric_unknown, C86_functions, C86_disabled, C86_listed, C86_documented_partial,
  C86_undocumented, C86_documented_refuted, C86_dictionary_partial, C86_dictionary_refuted,
  C86_built_in_sequence, C86_sequence_otherwise_unaffected, C93_displayed_once,
  C66_setters_refuted.
* `ClassicalDedekindReals.sig_forall_dec`:
  C07_selected_constraints, C07_empty_selection_fails, C07_only_membership_matters,
  C18_loop_equals_vmap, C32_default_selects_every_point, C47_padding_partial,
  C47_length_seven_refuted, C47_sun_stops_for_ever_refuted,
  C87_library_controllers_stateless, C85_matching_partial, C66_getters,
  C66_short_state_refuted.
* `ClassicalDedekindReals.sig_forall_dec`, `FunctionalExtensionality.functional_extensionality_dep`:
  C01_output_within_bounds, C01_upper_bound_always, C02_clip_leaves_inside_alone,
  C02_clip_idempotent, C02_clip_nearest, C02_clip_total, C03_info_agrees_with_history,
  C09_failing_call, C09_shape_mismatch_refuted, C04_disabled_passthrough,
  C06_reported_values, C06_initially_empty, C38_cascade_composes, C38_last_member_bounds,
  C39_cascade_reset_refuted, C29_polynomial_value, C29_valid_strengthener,
  C29_negative_default, C44_continuous_model, C44_docking_model, C44_control_shape,
  C48_each_deputy_separately, C55_velocity_feedback,
  C55_position_independent_and_zero_at_rest, C36_sequence_safe, C90_equation, C90_feedback,
  C90_no_solution_refuted, C90_construction_refuted, C90_any_gain_partial,
  C90_coasting_partial, C56_recorded_controls_unchanged, C56_programs_see_values,
  C61_later_calls_do_not_change_info, C61_modifying_info_refuted, C62_bounds_fixed_partial,
  C62_array_bounds_refuted, C31_trajectory, C31_recurrence,
  C46_continuous_and_delta_v_agree_partial, C49_each_deputy_with_its_view_partial,
  C49_flag_never_set, C49_flag_refuted, C50_history_partial, C50_latch,
  C50_latched_for_ever, C50_only_the_end_counts, C50_detection_call_refuted,
  C50_switching_call_refuted, C50_reset_refuted, C51_exact_braking_invariant,
  C51_exact_braking_all_times, C51_euler_refuted, C51_euler_braking_partial,
  C51_heavy_refuted, C51_switching_loop_runs, C70_compiled_simplex_same_partial,
  C71_stateless_controller_same_partial, C71_stateful_explicit_refuted,
  C71_stateful_implicit_refuted, C77_thrust_opposes_velocity,
  C77_planar_thrust_opposes_velocity, C77_energy, C77_rest_is_left_refuted,
  C12_short_window, C52_one_step_as_episode, C72_exact_is_accurate, C52_recorded_history,
  C52_number_of_steps, C52_episode_ends, C52_endless_without_progress,
  C53_episode_starts_safe, C53_first_safe_sample, C53_gives_up, C53_sampler_raises,
  C53_cases_complete, C53_not_constraint_based, C54_no_verdict_refuted,
  C54_verdict_partial, C54_rows, C84_own_deputy_partial, C84_same_deputy,
  C84_default_refuted, C84_short_state_stops_the_sun, C84_reset_leaves_deputies,
  C85_mismatch_raises, C85_default_refuted, C10_explicit_switching,
  C12_accepts_iff_foreseen_safe, C12_returning_call, C11_latch_duration,
  C13_lookahead_restores_controller, C13_call_makes_at_most_one_request,
  C13_exception_disturbs, C14_explicit_safe_for_ever, C14_loop_runs,
  C15_out_of_bounds_refuted, C15_out_of_bounds_partial, C16_accepted_control_has_plan,
  C16_safe_while_plan_lasts, C16_implicit_safe_for_ever, C17_simplex_disabled_ignored,
  C08_simplex_present_values_only, C08_assignments_last_value_counts,
  C05_simplex_reset_refuted, C05_simplex_reset_partial, C88_gain_is_determined.
* `ClassicalDedekindReals.sig_forall_dec`, `ClassicalDedekindReals.sig_not_dec`, `FunctionalExtensionality.functional_extensionality_dep`:
  C19_program_encodes, C20_returned_control_meets_barriers, C21_minimally_invasive,
  C21_acceptable_unchanged, C22_minimised_cost_partial, C22_documented_weight_refuted,
  C23_intervening_iff_far, C23_any_solver, C24_infeasible_handling,
  C24_warning_means_infeasible, C24_feasible_call, C25_causes_of_solved_call_partial,
  C25_stale_causes_refuted, C26_explicit_names, C27_slack_always_solvable,
  C17_explicit_asif_disabled_ignored, C03_explicit_asif_info_agrees_with_history,
  C03_implicit_asif_info_agrees_with_history, C09_explicit_asif_failing_call,
  C09_implicit_asif_failing_call, C06_explicit_asif_reported_values,
  C06_implicit_asif_reported_values, C05_explicit_asif_reset, C05_implicit_asif_reset,
  C08_explicit_asif_assignments, C08_implicit_asif_assignments,
  C08_explicit_asif_present_values_only, C08_implicit_asif_present_values_only,
  C30_documented_chain, C41_max_and_min_limits, C41_magnitude_limit,
  C41_negative_magnitude_refuted, C41_true_gradients, C42_speed_bound,
  C42_planar_speed_bound, C42_conservative_with_margin, C42_not_too_strict,
  C42_no_margin_refuted, C43_reported_distance, C43_chief_collision_braking,
  C43_chief_collision_tight, C43_deputy_collision_braking,
  C43_violated_position_accepted_refuted, C58_radial_acceleration,
  C58_max_distance_deceleration_refuted, C92_documented_operations_partial,
  C92_assignments_ignored_refuted, C92_closer_wall_refuted, C35_program, C35_enforced,
  C23_discrete_intervening_iff_far, C36_closed_loop, C36_linear_strengthening,
  C37_failure_handling, C37_bounds_partial, C37_per_element_bounds_refuted,
  C17_discrete_disabled_ignored, C03_discrete_info_agrees_with_history,
  C09_discrete_failing_call, C06_discrete_reported_values, C05_discrete_reset,
  C08_discrete_present_values_only, C56_library_modules, C31_calls_look_ahead,
  C13_implicit_asif_restores_controller, C32_program_encodes,
  C32_default_enforced_everywhere, C21_implicit_minimally_invasive,
  C23_implicit_intervening_iff_far, C24_implicit_warning_means_infeasible,
  C24_implicit_infeasible_handling, C17_implicit_asif_disabled_ignored,
  C33_selected_points_partial, C33_unsafe_point_accepted_refuted,
  C34_slack_never_works_refuted, C25_implicit_causes_of_solved_call_partial,
  C26_implicit_misattribution_refuted, C26_implicit_missing_name_refuted,
  C81_three_thrusts, C46_discrete_direction_refuted, C95_overshoot_partial,
  C95_stopping_partial, C95_short_window_refuted, C95_own_steps_refuted,
  C95_exact_steps_refuted, C95_exact_stopping_partial, C95_between_points_refuted,
  C51_safe_set, C51_switching_safe_for_ever, C59_short_window_refuted,
  C59_long_window_partial, C70_compiled_asif_same_partial, C70_assignments_ignored,
  C70_assignment_refuted, C70_compiled_implicit_asif_same_partial,
  C71_stateless_implicit_asif_same_partial, C71_stateful_implicit_asif_refuted,
  C87_own_controller_partial, C87_stateless_shared_partial, C87_shared_refuted,
  C87_reset_reaches_all, C87_optimising_users, C72_limited_accuracy,
  C73_long_period_refuted, C88_gain_exists, C80_explicit, C80_disabled_refuted,
  C80_implicit, C80_discrete, C91_uncompiled_call_partial, C91_first_call_decides,
  C91_steady_partial, C91_two_rates_refuted, C78_docking_2d, C78_docking_3d,
  C78_integrator, C78_default_bounds, C78_default_docking, C79_documented_default_partial,
  C93_one_warning_per_process_refuted, C93_first_failure_partial,
  C93_silent_failure_refuted, C93_discrete_partial, C31_window_below_a_step,
  C65_docking_2d, C65_docking_3d.
* `ClassicalDedekindReals.sig_forall_dec`, `ClassicalDedekindReals.sig_not_dec`, `Classical_Prop.classic`, `FunctionalExtensionality.functional_extensionality_dep`:
  C63_reported_value, C63_value_is_barrier, C63_value_exists_partial, C63_no_value_refuted,
  C63_stays_out, C63_braking_keeps_out, C28_stays_safe, C28_recovers, C30_chain_keeps_safe,
  C43_chief_collision_any_braking, C43_max_distance_braking, C44_exact_flow,
  C44_solves_the_equations, C44_steps_compose, C45_psm_is_drift_distance,
  C45_deputy_psm_is_drift_distance, C58_keep_out_acceleration_available,
  C94_flight_partial, C94_default_flight_partial, C94_whole_module_partial,
  C94_long_steps_refuted, C94_coasting_refuted, C68_feasible_nearby_keeps_safe,
  C68_docking_3d_always_feasible, C68_docking_2d_always_feasible,
  C68_docking_3d_keeps_limits, C68_docking_2d_keeps_limits, C57_history_partial,
  C57_held_ignores_desired, C57_nan_step_refuted, C57_nan_step_survives_reset,
  C90_ellipse_is_free, C81_always_feasible_refuted, C81_collision_partial,
  C82_values_partial, C82_delta_v_limit_refuted, C81_speed_partial,
  C51_optimization_always_feasible, C51_optimization_safe_for_ever, C73_held_control,
  C73_bias_absorbs, C73_exact_when_rate_keeps, C88_planar_stop_keeps_limits,
  C88_spatial_stop_keeps_limits, C89_spatial_switching, C89_planar_switching,
  C89_between_calls_refuted, C78_inspection, C78_discrete_inspection, C78_deputies,
  C78_default_inspection, C79_documented_default_refuted, C74_lookahead, C74_whole_steps,
  C74_decimal_refuted, C74_zero_step, C74_not_finite, C75_latch_holds, C75_latch_releases,
  C75_latch_ends_partial, C75_endless_latch_refuted, C75_decimal_refuted, C76_episode,
  C76_episode_ends_partial, C76_decimal_refuted, C76_endless_episode_refuted,
  C64_braking_available_partial, C64_reduced_thrust_refuted, C65_inspection,
  C65_deputies_partial, C65_deputy_drift_refuted, C67_ready, C67_names.
* `ClassicalDedekindReals.sig_forall_dec`, `ClassicalDedekindReals.sig_not_dec`, `ClassicalUniqueChoice.dependent_unique_choice`, `Classical_Prop.classic`, `FunctionalExtensionality.functional_extensionality_dep`, `RelationalChoice.relational_choice`:
  C69_exact_solver_exists, C69_answer_independent_of_solver, C69_some_solver_serves_all,
  C91_short_state_refuted.
<!-- axioms end -->

## 6. Findings

Behaviour of the code that contradicts its documentation, or that a user would not expect.
Each is a theorem about the faithful model where a name is given.

1. `reset` of a latching simplex module keeps the elapsed latch time, so the first latch after
   a reset is too short (`C05_simplex_reset_refuted`).
2. The delta-v module returns the desired control on the call that detects the violation, adds
   its error once per violating forecast, and `reset` neither unlatches nor agrees with the
   flag (`C50_detection_call_refuted`, `C50_switching_call_refuted`, `C50_reset_refuted`).
3. The combined inspection module never sets its intervening flag (`C49_flag_refuted`), and
   resetting a combined or cascaded module does not reset the members
   (`C39_cascade_reset_refuted`).  All combined modules share one default deputy module.
4. A disabled module returns the desired control without clipping, and keeps stale flags.
5. The weight of the slack variables in the QP is the square root of the documented one
   (`C22_documented_weight_refuted`).
6. The implicit ASIF module raises on every call when any constraint has a slack variable
   (`C34_slack_never_works_refuted`).
7. With subsampling, the implicit ASIF module reports the wrong constraint as the cause or
   raises IndexError (`C26_implicit_misattribution_refuted`, `C26_implicit_missing_name_refuted`).
8. Subsampling skips the trajectory point with number `num_check_all`
   (`C33_documented_point_missed_refuted`, `C33_unsafe_point_accepted_refuted`).
9. After an infeasible QP the reported causes are those of an earlier call
   (`C25_stale_causes_refuted`).
10. A HOCBF constraint of relative degree one cannot be constructed (`C30_degree_one_refuted`).
11. The discrete inspection module turns the sun the wrong way, and padding of short states
    is wrong for seven entries (`C46_discrete_direction_refuted`, `C47_length_seven_refuted`,
    `C47_sun_stops_for_ever_refuted`).
12. The array form of the deputy passive-safety constraint always raises
    (`C45_deputy_array_refuted`).
13. The safety-assurance run calls constraints without their parameters and always raises
    (`C54_no_verdict_refuted`).
14. Initial state sampling gives up after 99 samples (`C53_gives_up`).
15. The default Euler integration of the 1d example leaves the safe set, as do masses above
    one (`C51_euler_refuted`, `C51_heavy_refuted`).
16. Not-a-number values count as safe and pass clipping (`C57_nan_passes_refuted`).
17. The explicit simplex module monitors the unclipped control but applies the clipped one
    (`C15_out_of_bounds_refuted`).
18. The discrete module raises ValueError on per-element bounds
    (`C37_per_element_bounds_refuted`).
19. An exception in the middle of the lookahead leaves the backup controller advanced
    (`C13_exception_disturbs`).
20. `reset` clears neither the reported constraint values nor the ASIF causes.
21. A negative magnitude limit is accepted and acts as its absolute value
    (`C41_negative_magnitude_refuted`).
22. Collision and maximum distance constraints can be positive although the position is
    already in violation (`C43_violated_position_accepted_refuted`).
23. The maximum distance constraint's deceleration ignores the centrifugal term
    (`C58_max_distance_deceleration_refuted`).
24. The implicit 1d module's window is too short, whatever it is (`C59_short_window_refuted`).
25. `generate_info` hands out the module's own arrays (`C61_modifying_info_refuted`).
26. Bounds given as arrays are kept by reference (`C62_array_bounds_refuted`).
27. The sun constraint has no value (nan, which counts as safe) for a deputy that looks
    straight into the sun, or has the sun at the very edge of its view
    (`C63_no_value_refuted`).
28. The braking acceleration of the inspection modules assumes a maximum thrust of 1 N whatever
    the control bounds are; with smaller bounds the collision constraint accepts states from
    which every admissible thrust collides (`C64_reduced_thrust_refuted`).
29. `deputy_PSM_i` keeps chief_radius + deputy_radius between two drifting deputies instead of
    twice the deputy radius (`C65_deputy_drift_refuted`).
30. The setters of the state wrappers always raise TypeError (`C66_setters_refuted`).
31. `sun_angle` and `delta_v` of a wrapped six-entry state silently read the velocity along z
    (`C66_short_state_refuted`).
32. With jit (the default), assigning `bias`, `alpha`, `bias_negative` or the slack scale of a constraint
    after the first call has no effect until the step size or the shape of an argument changes
    (`C70_assignments_ignored`, `C70_assignment_refuted`).
33. With jit (the default), a backup controller with internal state raises ValueError whenever it
    is asked for a control; an implicit module then raises in every call
    (`C71_stateful_explicit_refuted`, `C71_stateful_implicit_refuted`, `C71_stateful_implicit_asif_refuted`).
34. A module called once per period with its control held in between can leave the safe set
    without any warning when the strengthening gain times the period exceeds one
    (`C73_long_period_refuted`); the library does not relate the two.

35. A backup window of 0.3 has two steps of 0.1, not three: `int(window / step)` truncates the
    rounded quotient (`C74_decimal_refuted`).
36. A latch of 1.0 holds for eleven calls of 0.1 and an episode of 1.0 has eleven steps of 0.1, since
    the accumulated time is rounded (`C75_decimal_refuted`, `C76_decimal_refuted`).  With a latch or
    simulation time beyond 2^53 steps the accumulated time stops growing and neither ends
    (`C75_endless_latch_refuted`, `C76_endless_episode_refuted`).

37. The stopping controllers do not bring the velocity to zero, as documented: they feed back the
    velocity only, and off the chief's orbit a spacecraft at rest is accelerated by gravity with
    the thrusters off (`C77_rest_is_left_refuted`).
38. Five constraint classes use another default strengthener than documented: the relative velocity
    in space ([0, .05, 0, .005] where [0, .05, 0, .5] is documented), the sun keep-out zone
    ([0, .001, 0, .0001] for [0, .01, 0, .05]), and the chief collision, deputy collision and
    maximum distance ([0, .01, 0, .001] for [0, .005, 0, .05]) (`C79_documented_default_refuted`).
39. A disabled constraint without strengthening function makes every call of an explicit or
    implicit ASIF module raise AssertionError (`C80_disabled_refuted`); discrete modules skip it.
40. With default settings the program of the inspection optimization module is infeasible in states
    that violate none of its constraints: close to the maximum distance, moving outwards slowly
    enough to brake and sideways within the speed limits (`C81_always_feasible_refuted`).
41. The option delta_v_limit of the two inspection modules with constraints is never read; no
    constraint depends on the delta-v used (`C82_delta_v_limit_refuted`).
42. A misspelt option of a constraint is dropped without notice, since the constructor gives all
    unknown keywords to a pydantic model that ignores what it does not know
    (`C83_constraint_refuted`).  A misspelt `bias` gives a constraint without margin.  Modules
    reject unknown options.
43. All combined inspection modules built without `deputy_rta` share one deputies' module, since the
    default is evaluated at import.  Disabling it, or changing a constraint, through one changes all
    (`C84_default_refuted`, `C84_same_deputy`), and one call with a state that lacks the sun's angle
    stops the sun for all (`C84_short_state_stops_the_sun`).  Resetting a combined module does not
    reset it.
44. `num_deputies` is not handed to the default deputies' module, which is built for five: a combined
    module built with any other number and no `deputy_rta` raises on every call
    (`C85_default_refuted`).
45. Building an implicit ASIF module adds an entry to the caller's `jit_compile_dict`, so that an
    explicit one built later with the same dictionary is compiled differently
    (`C86_dictionary_refuted`).  Its `pred_state` and `integrate` are compiled by default although
    the documentation says they are not (`C86_documented_refuted`).
46. Simplex modules given the same backup controller object share its state: an intervention of one
    changes the control the other gets in the same situation (`C87_shared_refuted`), and resetting
    one puts the controller of all into its initial state (`C87_reset_reaches_all`).  The library's
    own controllers have no state.
47. A step size that is not a number, given once to a simplex module that is being held, holds it on
    the backup controller for ever (`C57_nan_step_refuted`).  `reset` does not repair it: the next
    intervention is permanent again (`C57_nan_step_survives_reset`).
48. The switching modules look at the state a step ahead only: a docking flight can be outside its
    limits between two calls although it is within them at both, and nothing intervenes
    (`C89_between_calls_refuted`).
49. The Riccati equation that the delta-v module's constructor solves has no solution, for any mass
    and mean motion: it integrates positions and velocities, six integrals for three thrusters
    (`C90_no_solution_refuted`).  Every matrix misses it in some direction by the full weight 1e-5
    of the state.  scipy either raises (`C90_construction_refuted`) or returns a matrix that is the
    outcome of rounding and not a solution.
50. In a compiled inspection module (the default) a state without the sun's entries does not stop
    the sun for its own call if a complete state came first with the same step size; it stops the
    sun for every step size first used later.  One module so applies two rates to equal states
    (`C91_short_state_refuted`, `C91_two_rates_refuted`).  Finding 11 describes the attribute, and
    so the uncompiled module.
51. jit_enable=False does not reach the discrete module's constraint functions (constraint.py
    532-533): they are compiled on first use, and a bias or strengthening function assigned later is
    ignored for good, also a more conservative one, while the parameters and enabled flags are heeded
    (`C92_assignments_ignored_refuted`, `C92_closer_wall_refuted`).
52. With solver_exception=False (the default) a user hears of one infeasible program per process:
    SolverWarning has a constant text, and python displays equal warnings from one line once.  All
    later failures, also of other modules, return the clipped desired control with intervening
    False and the info dictionary of an accepted call (`C93_one_warning_per_process_refuted`,
    `C93_silent_failure_refuted`).  The text claims that the desired control is passed, which is
    not so if it is outside the bounds.  SolverError.__str__ drops the message that the discrete
    module puts into it (utils.py 97-98).
53. The strengthening functions of DiscreteInspection1v1RTA suit steps of about 4 s with the default
    arguments; no check ties them to step_size.  With steps of 15 s the optimisation accepts full
    thrust from rest under the velocity limit alone, and the next state is beyond the limit
    (`C94_long_steps_refuted`).
54. With steps of 4 s the passively safe maneuver constraint of the same module alone accepts full
    thrust towards the chief at rest 31 m away; coasting from the next state passes within 10 m of
    the chief (`C94_coasting_refuted`).  With steps of a second it is kept.
55. Integrator1dDockingImplicitOptimizationRTA looks only at the foremost predicted point
    (subsample_constraints_num_least=1).  If that is the last one and the vehicle is still
    approaching there, no control meets the condition although all predicted points are safe, and
    the call raises SolverError or, with exceptions off, lets the clipped desired control through
    with a warning (`C95_short_window_refuted`, every window).  At rest or receding the foremost
    point is the present one, which no control moves: full thrust is accepted, and just before the
    target the vehicle then passes it whatever comes next, for every step size
    (`C95_own_steps_refuted` for Euler steps, `C95_exact_steps_refuted` for exact ones).  The
    overshoot shown is of the order of dt^2 / m: 0.1 mm for exact steps of 0.02 s and 1 kg.
    For Euler flights that could always be stopped in the window it is bounded by dt / (10 m)
    (`C95_overshoot_partial`).  With exact steps the highest point may lie between two predicted
    ones and is missed (`C95_between_points_refuted`).

## 7. Not modelled yet

* What scipy's Riccati solver returns when the equation has no solution (C90).  The gain of the
  stopping controllers is modelled (C77, C88).
