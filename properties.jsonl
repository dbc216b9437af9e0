{"id": "C01", "title": "Filtered control always respects the actuator bounds", "statement": "Whenever an enabled RTA module's filter_control returns, every component of the returned control lies between the lower and the upper control bound (each side only if it is configured, and provided low <= high), whatever algorithm computed it, whatever the state and desired control are, and whatever calls were made before.", "quantifier": "all module kinds, bounds (scalar, per-element, one-sided), states, step sizes, desired controls and histories of API calls", "why_tests_cant": "a test checks finitely many controls; the claim covers every value any subclass may compute", "anchors": ["run_time_assurance/rta/base.py:RTAModule.filter_control", "run_time_assurance/rta/base.py:RTAModule._clip_control"]}
{"id": "C02", "title": "Bounds that are respected already are not changed by clipping, and clipping moves each component as little as possible", "statement": "The clipping step leaves any control that is already inside the bounds untouched, is idempotent, and yields the nearest point of the box to the computed control.", "quantifier": "all controls and all consistent bounds", "why_tests_cant": "nearest-point is a statement over every point in the box", "anchors": ["run_time_assurance/rta/base.py:RTAModule._clip_control", "run_time_assurance/rta/base.py:ConstraintBasedRTA._clip_control_jax"]}
{"id": "C03", "title": "The info record agrees with what the caller sent and received", "statement": "After filter_control returns, generate_info reports the desired control that was passed in and the control that was returned; before the first call and after reset both are absent.", "quantifier": "all histories of filter/reset/enable/update calls ending in any state", "why_tests_cant": "histories are unbounded", "anchors": ["run_time_assurance/rta/base.py:RTAModule.filter_control", "run_time_assurance/rta/base.py:RTAModule.generate_info", "run_time_assurance/rta/base.py:RTAModule.reset"]}
{"id": "C04", "title": "A disabled module passes the desired control through unchanged", "statement": "While enable is False filter_control returns the desired control itself, without clipping, without evaluating the algorithm, and without changing the intervening flag, the recorded constraint values, the latch or the backup controller.", "quantifier": "all modules, states, desired controls and module states", "why_tests_cant": "must hold for every reachable module state", "anchors": ["run_time_assurance/rta/base.py:RTAModule.filter_control"]}
{"id": "C05", "title": "Reset brings a module back to its initial behaviour", "statement": "After reset, in any history, a module answers every later sequence of calls exactly as a newly built module would.", "quantifier": "all histories before reset and all call sequences after it", "why_tests_cant": "needs equality of two infinite families of executions", "anchors": ["run_time_assurance/rta/base.py:RTAModule.reset", "run_time_assurance/rta/simplex.py:SimplexModule.reset", "run_time_assurance/controller.py:RTABackupController.reset"]}
{"id": "C06", "title": "Reported constraint values are the unbiased constraints at the right state and are labelled correctly", "statement": "After filter_control on an enabled module the info record holds, under the key for the last state, one value per configured constraint, in order, equal to the unbiased constraint function at the input state with the parameters in force at that call; after update_constraint_values it holds them under the key for the current state; exactly one of the two keys is present at any time.", "quantifier": "all constraint sets, parameter changes, states and histories", "why_tests_cant": "unbounded histories mixing parameter changes and calls", "anchors": ["run_time_assurance/rta/base.py:ConstraintBasedRTA._update_constraint_values", "run_time_assurance/rta/base.py:ConstraintBasedRTA.generate_info", "run_time_assurance/constraint.py:ConstraintModule._phi"]}
{"id": "C07", "title": "constraints_to_use selects exactly the named constraints", "statement": "With a constraints_to_use list the module enforces exactly the defined constraints whose name is in the list, in definition order and whatever the order or repetitions in the list; unknown names are ignored; if none remains construction fails with ValueError.", "quantifier": "all constraint dictionaries and name lists", "why_tests_cant": "all lists of names of any length", "anchors": ["run_time_assurance/rta/base.py:ConstraintBasedRTA.__init__"]}
{"id": "C08", "title": "Changing a constraint's parameters or enabled flag takes effect at the next call and only depends on the present values", "statement": "The control returned by an enabled constraint-based module depends on constraint parameters and enabled flags only through their values at the time of the call; earlier values leave no trace.", "quantifier": "all sequences of parameter and flag changes interleaved with calls", "why_tests_cant": "unbounded interleavings", "anchors": ["run_time_assurance/rta/base.py:ConstraintBasedRTA._update_params", "run_time_assurance/rta/base.py:ConstraintBasedRTA.compute_filtered_control", "run_time_assurance/rta/asif.py:ASIFModule._update_direct_inequality_params"]}
{"id": "C09", "title": "A failing filter call records the desired control but never a new actual control", "statement": "If filter_control raises, the desired control is recorded, and the previously recorded actual control, the enable flag and the bounds are unchanged.", "quantifier": "all modules and points of failure inside the algorithm", "why_tests_cant": "every failure point and history", "anchors": ["run_time_assurance/rta/base.py:RTAModule.filter_control", "run_time_assurance/rta/base.py:ConstraintBasedRTA.compute_filtered_control"]}
{"id": "C10", "title": "Explicit simplex switches exactly when the predicted next state violates an enabled constraint", "statement": "When not latched, the explicit simplex module returns the (clipped) desired control if every enabled constraint including its bias is non-negative at the predicted next state, and otherwise returns the (clipped) backup control; intervening reports which.", "quantifier": "all states, controls, constraint sets, parameters, enabled flags, prediction models and backup controllers", "why_tests_cant": "ranges over every model and constraint set", "anchors": ["run_time_assurance/rta/simplex.py:SimplexModule._filter_control", "run_time_assurance/rta/simplex.py:ExplicitSimplexModule._monitor", "run_time_assurance/rta/simplex.py:SimplexModule._constraint_violation"]}
{"id": "C11", "title": "The latch holds the backup controller for the configured time", "statement": "After an intervention with latch time T and constant step dt > 0, the backup controller stays in command for exactly the least n with n*dt >= T further calls whatever the desired controls are, and the call after those consults the monitor again.", "quantifier": "all latch times, step sizes, desired controls and states", "why_tests_cant": "n grows without bound as dt shrinks", "anchors": ["run_time_assurance/rta/simplex.py:SimplexModule._filter_control"]}
{"id": "C12", "title": "Implicit simplex checks exactly the recovery trajectory it promises", "statement": "The implicit simplex monitor accepts the desired control iff every enabled constraint is non-negative at the state reached by the desired control and at each of the floor(window/step) following states under the clipped backup controller, started from the controller's present internal state.", "quantifier": "all windows, steps, states, models and stateful or stateless backup controllers", "why_tests_cant": "trajectory length is unbounded", "anchors": ["run_time_assurance/rta/simplex.py:ImplicitSimplexModule.integrate", "run_time_assurance/rta/simplex.py:ImplicitSimplexModule._monitor"]}
{"id": "C13", "title": "Looking ahead does not disturb the backup controller", "statement": "Evaluating the implicit simplex monitor or the implicit ASIF trajectory leaves the internal state of the backup controller as it was before, for every window length, provided no exception is raised on the way.", "quantifier": "all controllers, controller states, window lengths and histories", "why_tests_cant": "unbounded number of controller steps inside a call", "anchors": ["run_time_assurance/rta/simplex.py:ImplicitSimplexModule.integrate", "run_time_assurance/rta/asif.py:ImplicitASIFModule.integrate", "run_time_assurance/controller.py:RTABackupController.save", "run_time_assurance/controller.py:RTABackupController.restore"]}
{"id": "C14", "title": "Explicit simplex keeps the system safe for ever", "statement": "If the backup controller keeps the constraint set invariant under the prediction model, the plant follows the model, and the desired control is within the bounds, then from any state in the set every state visited by the closed loop satisfies every enabled constraint.", "quantifier": "all desired control sequences (in-bounds), initial safe states, models and numbers of steps", "why_tests_cant": "infinite horizon", "anchors": ["run_time_assurance/rta/simplex.py:ExplicitSimplexModule", "run_time_assurance/rta/simplex.py:SimplexModule._filter_control"]}
{"id": "C15", "title": "Explicit simplex safety does not depend on the desired control being inside the bounds", "statement": "The guarantee of the explicit simplex module also holds when the primary controller asks for controls outside the actuator bounds.", "quantifier": "all desired controls, including out-of-bounds ones", "why_tests_cant": "needs the right choice of dynamics and constraint to expose the gap between the predicted and the applied control", "anchors": ["run_time_assurance/rta/simplex.py:ExplicitSimplexModule._monitor", "run_time_assurance/rta/base.py:RTAModule.filter_control"]}
{"id": "C16", "title": "Implicit simplex keeps the system safe while a verified recovery plan lasts, and for ever if the plan ends in an invariant set", "statement": "In closed loop with an exact model, after any accepted control the next floor(window/step)+1 states satisfy every enabled constraint even if every later desired control is rejected; if in addition a safe backup trajectory over the window implies it stays safe, all states visited are safe.", "quantifier": "all desired control sequences, windows, stateful controllers and numbers of steps", "why_tests_cant": "infinite horizon and unbounded windows", "anchors": ["run_time_assurance/rta/simplex.py:ImplicitSimplexModule"]}
{"id": "C17", "title": "Disabled constraints are ignored by every algorithm", "statement": "With a constraint disabled, a module returns the same control it would return had that constraint been left out.", "quantifier": "all constraint sets (for ASIF modules: of constraints with a strengthening function, which the documentation requires, see C80), positions of the disabled constraint, states and controls, for simplex, explicit ASIF, implicit ASIF, direct inequality and discrete modules", "why_tests_cant": "ranges over all constraint sets and all solver inputs", "anchors": ["run_time_assurance/rta/simplex.py:SimplexModule.constraint_disabled", "run_time_assurance/rta/asif.py:ExplicitASIFModule.constraint_disabled", "run_time_assurance/rta/asif.py:ImplicitASIFModule.constraint_disabled", "run_time_assurance/rta/asif.py:ASIFModule.direct_constraint_disabled", "run_time_assurance/rta/asif.py:DiscreteASIFModule._filter_control"]}
{"id": "C18", "title": "Batch and loop evaluation agree", "statement": "Turning jit/vmap off does not change the constraint values along a trajectory or the inequality rows, for trajectories of any length.", "quantifier": "all trajectories, constraints, parameters", "why_tests_cant": "trajectories of every length", "anchors": ["run_time_assurance/rta/simplex.py:SimplexModule._get_constraint_vals", "run_time_assurance/rta/simplex.py:SimplexModule._get_constraint_vals_no_vmap", "run_time_assurance/rta/asif.py:ImplicitASIFModule._get_constraint_ineq_mats", "run_time_assurance/rta/asif.py:ImplicitASIFModule._get_constraint_ineq_mats_no_vmap"]}
{"id": "C19", "title": "The ASIF program encodes exactly the barrier conditions, the direct constraints and the bounds", "statement": "A control (with slack values) satisfies the inequality system handed to the solver by the explicit ASIF module iff it is inside the configured bounds, satisfies grad h(x).(f(x)+g(x)u) + alpha >= slack for each enabled constraint (slack zero if the constraint has none) and satisfies each enabled direct inequality, where alpha is alpha(h) if h >= 0 and alpha_negative(h)+bias_negative if h < 0.", "quantifier": "all dimensions, numbers of constraints, slack assignments, states and controls", "why_tests_cant": "ranges over all problem sizes and control vectors", "anchors": ["run_time_assurance/rta/asif.py:ExplicitASIFModule._generate_barrier_constraint_mats", "run_time_assurance/rta/asif.py:ASIFModule._generate_actuation_constraint_mats", "run_time_assurance/rta/asif.py:ASIFModule._update_ineq_mats", "run_time_assurance/rta/asif.py:get_lower_bound_ineq_constraint_mats"]}
{"id": "C20", "title": "The control returned by explicit ASIF satisfies the barrier conditions", "statement": "When the solver finds a solution, the control finally returned by filter_control (after clipping) satisfies the barrier condition of every enabled constraint without slack, every enabled direct inequality and the bounds.", "quantifier": "all states, controls, constraint sets and any solver meeting the quadratic program contract", "why_tests_cant": "all problem data", "anchors": ["run_time_assurance/rta/asif.py:ASIFModule._filter_control", "run_time_assurance/rta/asif.py:ASIFModule._optimize", "run_time_assurance/rta/base.py:RTAModule.filter_control"]}
{"id": "C21", "title": "ASIF is minimally invasive", "statement": "Without slack variables the returned control is the unique closest control, in Euclidean norm, to the desired control among those meeting the bounds and barrier conditions; in particular a desired control that meets them is returned unchanged with intervening False.", "quantifier": "all problem data and all competing controls", "why_tests_cant": "optimality is a statement over every competitor", "anchors": ["run_time_assurance/rta/asif.py:ASIFModule._optimize", "run_time_assurance/rta/asif.py:BaseOptimizationModule.__init__", "run_time_assurance/rta/asif.py:BaseOptimizationModule.monitor"]}
{"id": "C22", "title": "The slack penalty has the documented weight", "statement": "The objective minimised by the QP-based modules is half the squared distance to the desired control plus half of slack_priority_scale times the squared slack, as documented, and the same as in the discrete module.", "quantifier": "all priority scales and slack values", "why_tests_cant": "equality of objective functions over all arguments", "anchors": ["run_time_assurance/rta/asif.py:BaseOptimizationModule.__init__", "run_time_assurance/rta/asif.py:ASIFModule._optimize", "run_time_assurance/rta/asif.py:DiscreteASIFModule.obj", "docs/RTA/asif.md"]}
{"id": "C23", "title": "The intervening flag of optimization modules reports a change larger than epsilon", "statement": "After an enabled ASIF call, intervening is True iff the Euclidean distance between the desired control and the optimised control exceeds epsilon.", "quantifier": "all controls, epsilons, solver outcomes", "why_tests_cant": "all pairs of controls", "anchors": ["run_time_assurance/rta/asif.py:BaseOptimizationModule.monitor", "run_time_assurance/rta/asif.py:ASIFModule._filter_control", "run_time_assurance/rta/asif.py:DiscreteASIFModule._filter_control"]}
{"id": "C24", "title": "Infeasible programs are handled as configured", "statement": "If the solver reports inconsistency then with solver_exception the call raises SolverError and otherwise returns the clipped desired control with intervening False; any other solver error is propagated unchanged.", "quantifier": "all solver outcomes, modules and histories", "why_tests_cant": "all failure kinds and histories", "anchors": ["run_time_assurance/rta/asif.py:ASIFModule._optimize", "run_time_assurance/utils/utils.py:SolverError", "run_time_assurance/utils/utils.py:SolverWarning"]}
{"id": "C25", "title": "The reported intervention causes describe the present call", "statement": "After every enabled call that returns, constraints_causing_intervention lists, without repetition, the names of the constraints active at the solution of that same call.", "quantifier": "all histories of calls, feasible and infeasible", "why_tests_cant": "histories with infeasible steps anywhere", "anchors": ["run_time_assurance/rta/asif.py:ASIFModule._optimize", "run_time_assurance/rta/asif.py:ASIFModule.__init__"]}
{"id": "C26", "title": "Intervention causes are attributed to the right constraint", "statement": "Row i of the inequality system belongs to the constraint whose name is entry i of constraint_names, for explicit ASIF always and for implicit ASIF under every subsampling configuration.", "quantifier": "all constraint sets, dimensions, bounds configurations and subsampling settings", "why_tests_cant": "ranges over all configurations", "anchors": ["run_time_assurance/rta/asif.py:ASIFModule.__init__", "run_time_assurance/rta/asif.py:ExplicitASIFModule._generate_barrier_constraint_mats", "run_time_assurance/rta/asif.py:ImplicitASIFModule._generate_barrier_constraint_mats"]}
{"id": "C27", "title": "Slack on every constraint makes the program always solvable", "statement": "If every constraint has a slack variable, there are no direct inequalities and low <= high, the explicit ASIF program has a feasible point in every state, so the module never warns and never raises SolverError.", "quantifier": "all states, constraints and dynamics", "why_tests_cant": "all states", "anchors": ["run_time_assurance/rta/asif.py:ExplicitASIFModule._generate_barrier_constraint_mats"]}
{"id": "C28", "title": "Continuous enforcement of the barrier condition keeps the constraint satisfied and recovers from violations", "statement": "Along any differentiable trajectory on which the enforced barrier inequality holds at all times, a constraint that starts non-negative stays non-negative, and one that starts at -a < 0 with the default negative bias reaches zero within a/0.01 seconds.", "quantifier": "all trajectories, initial values, strengthening functions non-positive on negatives", "why_tests_cant": "continuum of times and trajectories", "anchors": ["run_time_assurance/rta/asif.py:ExplicitASIFModule._generate_barrier_constraint_mats", "run_time_assurance/constraint.py:ConstraintModule.alpha_negative"]}
{"id": "C29", "title": "Polynomial strengthening functions evaluate the documented polynomial and are valid strengtheners", "statement": "The strengthener computes sum c_i x^i; with c_0 = 0 and non-negative coefficients on odd powers only (one positive) it is zero at zero and strictly increasing; alpha_negative defaults to ten times alpha.", "quantifier": "all coefficient lists of any length and all arguments", "why_tests_cant": "arbitrary degree", "anchors": ["run_time_assurance/constraint.py:PolynomialConstraintStrengthener", "run_time_assurance/constraint.py:ConstraintModule.alpha_negative"]}
{"id": "C30", "title": "Higher order barrier constraints build the documented chain", "statement": "A higher order constraint of relative degree d >= 2 evaluates psi_{d-1} with psi_0 = h (with bias) and psi_i = grad psi_{i-1} . f + alpha(psi_{i-1}), reports the original constraint for logging, and shares its parameters; construction works for every positive relative degree.", "quantifier": "all relative degrees, constraints, dynamics and states", "why_tests_cant": "arbitrary degree", "anchors": ["run_time_assurance/constraint.py:HOCBFConstraint", "run_time_assurance/constraint.py:HOCBFConstraintHelper"]}
{"id": "C31", "title": "Implicit ASIF trajectories and sensitivities follow the documented recurrence", "statement": "The implicit ASIF module evaluates floor(window/step)+1 points starting at the present state, each obtained from the last with the clipped backup control, with sensitivities starting at the identity and S_{j+1} = (I + dt J(x_{j+1})) S_j.", "quantifier": "all windows, steps, states, controllers", "why_tests_cant": "unbounded trajectory length", "anchors": ["run_time_assurance/rta/asif.py:ImplicitASIFModule.integrate", "run_time_assurance/rta/asif.py:ImplicitASIFModule._generate_barrier_constraint_mats"]}
{"id": "C32", "title": "Implicit ASIF enforces the barrier condition at every selected trajectory point", "statement": "A control satisfies the inequality system of implicit ASIF iff it is inside the bounds and, for each enabled constraint and each selected trajectory point, grad h(x_j) S_j (f(x_0)+g(x_0)u) + alpha(h(x_j)) >= 0, plus the direct inequalities; with the default configuration every point is selected.", "quantifier": "all trajectories, numbers of constraints and points", "why_tests_cant": "all sizes", "anchors": ["run_time_assurance/rta/asif.py:ImplicitASIFModule._generate_ineq_constraint_mats", "run_time_assurance/rta/asif.py:ImplicitASIFModule.invariance_constraints", "run_time_assurance/rta/asif.py:ImplicitASIFModule.subsample_constraints"]}
{"id": "C33", "title": "Subsampling picks the documented points", "statement": "num_check_all = a and skip_length = s check the first a points and then every s-th point of the rest; num_least = N keeps N points with the smallest constraint values; keep_first and keep_last add the end points.", "quantifier": "all configurations and trajectory lengths", "why_tests_cant": "all combinations of lengths and settings", "anchors": ["run_time_assurance/rta/asif.py:ImplicitASIFModule.subsample_constraints", "run_time_assurance/constraint.py:SubsampleConfigValidator"]}
{"id": "C34", "title": "Implicit ASIF supports slack variables", "statement": "Implicit ASIF modules whose constraints use slack variables produce an inequality system of the right shape.", "quantifier": "all constraint sets with at least one slack", "why_tests_cant": "all sizes", "anchors": ["run_time_assurance/rta/asif.py:ImplicitASIFModule.subsample_constraints"]}
{"id": "C35", "title": "The discrete module enforces the discrete barrier condition", "statement": "Each constraint passed to the solver by the discrete ASIF module is non-negative at (u, slack) iff h(next(x,u)) >= h(x) - dt*alpha(h(x)) + dt*slack.", "quantifier": "all states, controls, models, step sizes > 0, constraints", "why_tests_cant": "all data", "anchors": ["run_time_assurance/constraint.py:DiscreteCBFConstraint.cbf_fn", "run_time_assurance/rta/asif.py:DiscreteASIFModule.__init__"]}
{"id": "C36", "title": "Discrete barrier enforcement keeps the system safe for ever", "statement": "If every control applied satisfies the discrete barrier condition and dt*alpha(h) <= h for h >= 0 on the visited range, then h stays non-negative at every step; and if the solver succeeds at each call the module's closed loop has this property.", "quantifier": "all control sequences and numbers of steps", "why_tests_cant": "infinite horizon", "anchors": ["run_time_assurance/constraint.py:DiscreteCBFConstraint.cbf_fn", "run_time_assurance/rta/asif.py:DiscreteASIFModule._filter_control"]}
{"id": "C37", "title": "The discrete module handles solver failure as configured and honours per-element bounds", "statement": "On solver failure the discrete module raises SolverError if configured and otherwise returns the clipped last iterate; bounds given per element are applied per element in the optimisation.", "quantifier": "all solver outcomes and bound configurations", "why_tests_cant": "all configurations", "anchors": ["run_time_assurance/rta/asif.py:DiscreteASIFModule.__init__", "run_time_assurance/rta/asif.py:DiscreteASIFModule._filter_control"]}
{"id": "C38", "title": "Cascaded modules compose their members in order", "statement": "A cascaded module returns the clipped result of passing the desired control through its members in list order, each seeing the previous output and the same state; intervening is True iff some member reports intervening after its own call; the last member's bounds hold for the output up to the cascade's own clipping.", "quantifier": "all lists of members of any length and all member behaviours", "why_tests_cant": "arbitrary length and behaviour", "anchors": ["run_time_assurance/rta/base.py:CascadedRTA.compute_filtered_control"]}
{"id": "C39", "title": "Resetting or disabling composite modules reaches their members", "statement": "Resetting a cascaded or combined module resets its members, so that a reset composite behaves like a new one.", "quantifier": "all histories", "why_tests_cant": "equality of unbounded executions", "anchors": ["run_time_assurance/rta/base.py:CascadedRTA", "run_time_assurance/zoo/cwh/inspection_3d.py:CombinedInspectionRTA"]}
{"id": "C40", "title": "Backup controller state is only changed by issuing controls and can be saved and restored", "statement": "generate_control_with_controller_state never changes a controller; save followed by any sequence of control requests and restore gives back the saved internal state; reset gives back the initial one; a generator that does not return a pair makes the call fail with ValueError and leaves the state unchanged.", "quantifier": "all controllers, internal states and request sequences", "why_tests_cant": "unbounded request sequences", "anchors": ["run_time_assurance/controller.py:RTABackupController"]}
{"id": "C41", "title": "State limit constraints mean what they say", "statement": "The magnitude (for a non-negative limit), max and min limit constraints are non-negative exactly when the selected state component is within the limit, and their barrier rows use the true gradient.", "quantifier": "all states, indices, limits", "why_tests_cant": "all real values", "anchors": ["run_time_assurance/constraint.py:ConstraintMagnitudeStateLimit", "run_time_assurance/constraint.py:ConstraintMaxStateLimit", "run_time_assurance/constraint.py:ConstraintMinStateLimit"]}
{"id": "C42", "title": "The relative velocity constraint is conservative", "statement": "Whenever the CWH relative velocity constraint with its bias is non-negative, the true speed is at most v0 + v1*(distance - v0_distance), provided v1*sqrt(delta) does not exceed the bias margin; without such a margin the smoothing can accept too high a speed by at most v1*sqrt(delta).", "quantifier": "all positions, velocities and parameters", "why_tests_cant": "all real values", "anchors": ["run_time_assurance/zoo/cwh/docking_2d.py:ConstraintDocking2dRelativeVelocity", "run_time_assurance/zoo/cwh/docking_3d.py:ConstraintCWH3dRelativeVelocity", "run_time_assurance/utils/utils.py:norm_with_delta"]}
{"id": "C43", "title": "Collision and distance constraints guarantee braking distance", "statement": "A non-negative chief-collision (deputy-collision, max-distance) constraint with positive braking acceleration implies the position constraint holds now and that constant radial braking at that acceleration keeps it for ever; a negative distance always gives a negative reported value.", "quantifier": "all positions and velocities away from the centre and all braking times", "why_tests_cant": "continuum of states and times", "anchors": ["run_time_assurance/zoo/cwh/inspection_1v1.py:ConstraintCWHChiefCollision", "run_time_assurance/zoo/cwh/inspection_1v1.py:ConstraintCWHMaxDistance", "run_time_assurance/zoo/cwh/inspection_3d.py:ConstraintCWHDeputyCollision"]}
{"id": "C44", "title": "Discrete CWH dynamics are the exact flow", "statement": "The discrete inspection model's matrices give the exact solution of the continuous CWH equations under constant control: identity at zero, the semigroup law, and the differential equation for all times, mass and mean motion.", "quantifier": "all times, states, controls, n > 0, m > 0", "why_tests_cant": "continuum of times", "anchors": ["run_time_assurance/zoo/cwh/inspection_1v1.py:DiscreteInspection1v1RTA.discrete_a_mat", "run_time_assurance/zoo/cwh/inspection_1v1.py:DiscreteInspection1v1RTA.discrete_b_mat", "run_time_assurance/zoo/cwh/utils.py:generate_cwh_matrices"]}
{"id": "C45", "title": "Passively safe maneuver constraint equals distance along the free-drift trajectory", "statement": "The PSM constraint is non-negative iff at each sampled future time the free-drift solution of the CWH equations stays outside the collision radius.", "quantifier": "all states, horizons and sample spacings", "why_tests_cant": "arbitrary number of samples", "anchors": ["run_time_assurance/zoo/cwh/inspection_1v1.py:ConstraintPassivelySafeManeuver", "run_time_assurance/zoo/cwh/inspection_3d.py:ConstraintPSMDeputy"]}
{"id": "C46", "title": "Sun angle evolves consistently between models", "statement": "The continuous and the discrete inspection modules and the delta-v module advance the sun angle in the same direction.", "quantifier": "all states and steps", "why_tests_cant": "cross-module agreement over all states", "anchors": ["run_time_assurance/zoo/cwh/inspection_1v1.py:Inspection1v1RTA.state_transition_system", "run_time_assurance/zoo/cwh/inspection_1v1.py:DiscreteInspection1v1RTA.next_state_differentiable", "run_time_assurance/zoo/cwh/inspection_1v1.py:SwitchingDeltaVLimitRTA._pred_state"]}
{"id": "C47", "title": "Short inspection states are padded to a full state", "statement": "Inspection modules accept states without the trailing sun/delta-v entries and complete them to the expected length; a stationary sun is then used for that call.", "quantifier": "all input lengths and histories", "why_tests_cant": "all lengths and later calls", "anchors": ["run_time_assurance/zoo/cwh/inspection_1v1.py:Inspection1v1RTA._get_state", "run_time_assurance/zoo/cwh/inspection_3d.py:InspectionRTA._get_state"]}
{"id": "C48", "title": "Multi-deputy dynamics act on each deputy separately", "statement": "The stacked multi-deputy dynamics apply the CWH equations to each deputy block and the control only to the first, for every number of deputies.", "quantifier": "all numbers of deputies and states", "why_tests_cant": "arbitrary number of deputies", "anchors": ["run_time_assurance/zoo/cwh/inspection_3d.py:InspectionRTA.__init__", "run_time_assurance/zoo/cwh/inspection_3d.py:InspectionRTA.state_transition_system", "run_time_assurance/zoo/cwh/inspection_3d.py:InspectionRTA.state_transition_input"]}
{"id": "C49", "title": "The combined module filters each deputy with its own view", "statement": "The combined inspection module moves deputy i's state to the front and keeps the order of the others, filters deputy i's slice of the desired control with it, and puts the result back in slice i; intervening is True iff some deputy's control was intervened on.", "quantifier": "all numbers of deputies, states and controls", "why_tests_cant": "arbitrary number of deputies", "anchors": ["run_time_assurance/zoo/cwh/inspection_3d.py:CombinedInspectionRTA.compute_filtered_control", "run_time_assurance/zoo/cwh/inspection_3d.py:CombinedInspectionRTA.get_agent_state"]}
{"id": "C50", "title": "The delta-v limiter hands over to its backup controller as soon as it predicts a violation", "statement": "The switching delta-v module returns the backup control on every call on or after the first call at which the predicted backup trajectory exceeds the delta-v limit, and the desired control before; prediction does not disturb the stored error integral.", "quantifier": "all states, controls, horizons and histories", "why_tests_cant": "unbounded histories and horizons", "anchors": ["run_time_assurance/zoo/cwh/inspection_1v1.py:SwitchingDeltaVLimitRTA.compute_filtered_control"]}
{"id": "C51", "title": "The double integrator's explicit constraint is invariant under its backup controller", "statement": "In the 1d integrator example full braking keeps the explicit safe set (and implies position <= 0 for ever) under exact integration, and under the default Euler integration.", "quantifier": "all states in the set, step sizes and numbers of steps", "why_tests_cant": "infinite horizon", "anchors": ["run_time_assurance/zoo/integrators/integrator_1d.py:ConstraintIntegrator1dDockingCollisionExplicit", "run_time_assurance/zoo/integrators/integrator_1d.py:Integrator1dDockingBackupController", "run_time_assurance/zoo/integrators/integrator_1d.py:Integrator1dDockingExplicitSwitchingRTA"]}
{"id": "C52", "title": "Simulated episodes record a consistent history", "statement": "simulate_episode returns arrays of equal length, one entry more than the number of steps; consecutive states are related by the model under the recorded filtered control; with the default end condition and dt > 0 it performs the least k >= 1 with k*dt >= simulation_time steps.", "quantifier": "all modules, models, durations and steps", "why_tests_cant": "unbounded episode length", "anchors": ["run_time_assurance/utils/sample_testing.py:DataTrackingSampleTestingModule.simulate_episode", "run_time_assurance/utils/sample_testing.py:BaseSampleTestingModule._check_done_conditions"]}
{"id": "C53", "title": "Episodes start in safe states", "statement": "With check_init_state, an episode only starts from a state at which every constraint is satisfied with and without bias, after at most a fixed number of samples, and otherwise fails with ValueError.", "quantifier": "all samplers and constraint sets", "why_tests_cant": "all sampler behaviours", "anchors": ["run_time_assurance/utils/sample_testing.py:DataTrackingSampleTestingModule.simulate_episode", "run_time_assurance/utils/sample_testing.py:DataTrackingSampleTestingModule.check_if_safe_state"]}
{"id": "C54", "title": "The safety assurance run returns a verdict for every sample", "statement": "The safety-assurance episode returns None for initially unsafe states, False if a constraint is violated or the solver fails, and True otherwise.", "quantifier": "all modules, states and episode lengths", "why_tests_cant": "unbounded episode length", "anchors": ["run_time_assurance/utils/sample_testing.py:SafetyAssuranceSampleTestingModule._simulate_episode", "run_time_assurance/utils/sample_testing.py:SafetyAssuranceSampleTestingModule.run_sample_test"]}
{"id": "C55", "title": "Stopping backup controllers depend only on velocity", "statement": "The docking LQR stop controllers return a control linear in the velocity components and independent of position, zero at rest, for every gain matrix.", "quantifier": "all gain matrices and states", "why_tests_cant": "all gains and states", "anchors": ["run_time_assurance/zoo/cwh/docking_2d.py:Docking2dStopLQRBackupController", "run_time_assurance/zoo/cwh/docking_3d.py:Docking3dStopLQRBackupController"]}
{"id": "C56", "title": "Results handed to and from the caller are not aliased", "statement": "Modifying in place the array that filter_control returned, or the desired control array that was passed in, never changes the module's recorded controls.", "quantifier": "all interleavings of calls and in-place modifications by the caller", "why_tests_cant": "all interleavings", "anchors": ["run_time_assurance/rta/base.py:RTAModule.filter_control"]}
{"id": "C57", "title": "Not-a-number values never pass as safe", "statement": "The simplex monitor never accepts a control whose predicted constraint value is not a number, and bound clipping never returns not-a-number.", "quantifier": "all IEEE values", "why_tests_cant": "special values anywhere", "anchors": ["run_time_assurance/rta/simplex.py:SimplexModule._constraint_violation", "run_time_assurance/rta/base.py:RTAModule._clip_control"]}
{"id": "C58", "title": "The braking acceleration assumed by the distance constraints is available", "statement": "The acceleration a_max that the inspection modules compute for their distance constraints can really be produced: full thrust directed along the line to the chief, within the control bounds, changes the rate of the distance by at least a_max, whenever the deputy is within the maximum distance and within the speed limits; for the collision constraint away from the chief, and for the maximum distance constraint towards it.", "quantifier": "all parameters, positions, velocities and continuous motions under the CWH equations", "why_tests_cant": "continuous motions and all parameters", "anchors": ["run_time_assurance/zoo/cwh/inspection_1v1.py:Inspection1v1RTA.__init__", "run_time_assurance/zoo/cwh/inspection_3d.py:InspectionRTA"]}
{"id": "C59", "title": "The implicit integrator modules keep the position limit", "statement": "In the 1d integrator example the implicit switching module, which checks the position along the backup trajectory for its backup window, keeps the position at or below zero for ever once it has accepted a control.", "quantifier": "all windows, step sizes, initial states, desired controls and numbers of steps", "why_tests_cant": "infinite horizon; the violation appears only after the window", "anchors": ["run_time_assurance/zoo/integrators/integrator_1d.py:Integrator1dDockingImplicitSwitchingRTA", "run_time_assurance/zoo/integrators/integrator_1d.py:ConstraintIntegrator1dDockingCollisionImplicit", "run_time_assurance/rta/simplex.py:ImplicitSimplexModule"]}
{"id": "C60", "title": "Random testing starts only from the states its specification describes", "statement": "The Latin hypercube test module uses the prepared samples in order, each exactly once, and raises IndexError when they are used up. The parametric test module builds each component from the distribution named for it: a constant is the given value exactly, a gaussian or uniform component is a value returned by the generator for exactly the given two parameters; any other name raises ValueError.", "quantifier": "all sample lists, positions, numbers of draws, distribution lists, parameters and generator states", "why_tests_cant": "unbounded sequences of draws from an arbitrary generator", "anchors": ["run_time_assurance/utils/sample_testing.py:LatinHypercubeRandomSampleTestingModule._get_initial_state", "run_time_assurance/utils/sample_testing.py:ParametricRandomSampleTestingModule._get_initial_state"]}
{"id": "C61", "title": "The info dictionary is a snapshot", "statement": "The controls in a dictionary returned by generate_info keep the values they had, whatever calls, resets and in-place modifications of other arrays follow, and modifying them does not change the module.", "quantifier": "all modules, programs of calls and in-place modifications, and all points of the program at which the dictionary is taken", "why_tests_cant": "all interleavings", "anchors": ["run_time_assurance/rta/base.py:RTAModule.generate_info", "run_time_assurance/rta/base.py:RTAModule.filter_control"]}
{"id": "C62", "title": "The control bounds are those given at construction", "statement": "Whatever a program does with its own objects after constructing a module, the bounds that the module enforces stay those given at construction.", "quantifier": "all forms of bounds (number, list, array), modules and programs", "why_tests_cant": "all interleavings of calls and in-place modifications", "anchors": ["run_time_assurance/rta/base.py:RTAModule.__init__", "run_time_assurance/rta/base.py:RTAModule._clip_control"]}
{"id": "C63", "title": "The sun constraint keeps the sun out of the sensor's view", "statement": "For a field of view between 0 and 180 degrees, the reported value of the inspection modules' sun constraint is not negative exactly when the sun is not in the view of a sensor that looks at the chief. The value used by the filters is the documented braking barrier for the deputy's clearance from the places where the sun is in view and the rate at which that clearance changes while the deputy moves and the sun turns. Motions along which the value stays non-negative never bring the sun into view, and from such a state braking with the assumed acceleration keeps a sun that stands still out of view for ever.", "quantifier": "all fields of view, accelerations, sun rates, positions, velocities and differentiable motions", "why_tests_cant": "a geometric statement about a continuum of states and motions", "anchors": ["run_time_assurance/zoo/cwh/inspection_1v1.py:ConstraintCWHConicKeepOutZone._compute", "run_time_assurance/zoo/cwh/inspection_1v1.py:ConstraintCWHConicKeepOutZone._phi", "run_time_assurance/zoo/cwh/inspection_1v1.py:Inspection1v1RTA.get_sun_vector"]}
{"id": "C64", "title": "The keep-out constraint only promises braking the control bounds can deliver", "statement": "Whenever the inspection modules' collision constraint is at least zero and the deputy is outside the keep-out distance, there is thrust within the module's control bounds that keeps it outside.", "quantifier": "all configurations (mass, mean motion, radii, limits, control bounds), states and thrust profiles", "why_tests_cant": "says that a braking manoeuvre exists, or that none exists, among all thrust functions of time", "anchors": ["run_time_assurance/zoo/cwh/inspection_1v1.py:Inspection1v1RTA.__init__", "run_time_assurance/zoo/cwh/inspection_1v1.py:ConstraintCWHChiefCollision", "run_time_assurance/zoo/cwh/inspection_3d.py:InspectionRTA.__init__"]}
{"id": "C65", "title": "The reported values of the docking and inspection modules mean the documented task conditions", "statement": "After a call, all reported constraint values of a docking or inspection module are at least zero exactly when the state meets the task's conditions: the distance-dependent speed limit, the velocity limits per axis, the distance to the chief between the sum of the radii and the maximum distance, the sun not in view, and no collision during 100 s of drifting; with several deputies also the distance between deputies of twice the deputy radius now and while both drift, and neither of them looking into the sun.", "quantifier": "all configurations, states and numbers of deputies", "why_tests_cant": "an equivalence over a continuum of states with a condition on future motion, for any number of deputies", "anchors": ["run_time_assurance/zoo/cwh/docking_2d.py:Docking2dRTAMixin._setup_docking_constraints", "run_time_assurance/zoo/cwh/docking_3d.py:Docking3dRTAMixin._setup_docking_constraints", "run_time_assurance/zoo/cwh/inspection_1v1.py:Inspection1v1RTA._setup_constraints", "run_time_assurance/zoo/cwh/inspection_3d.py:InspectionRTA._setup_constraints"]}
{"id": "C66", "title": "Named fields of the state wrappers read and write the matching array entries", "statement": "Reading a named field of a state wrapper (x, y, z, x_dot, y_dot, z_dot, sun_angle, delta_v) returns the array entry the modules use under that name and changes nothing; assigning to a named field changes that entry and no other.", "quantifier": "all wrapper classes of the zoo, fields, arrays and values", "why_tests_cant": "for all arrays, lengths and fields", "anchors": ["run_time_assurance/zoo/cwh/docking_2d.py:Docking2dState", "run_time_assurance/zoo/cwh/docking_3d.py:Docking3dState", "run_time_assurance/zoo/cwh/inspection_1v1.py:Inspection3dState", "run_time_assurance/zoo/integrators/integrator_1d.py:Integrator1dDockingState"]}
{"id": "C67", "title": "Every constraint set the library builds can be used with every filter", "statement": "The constraints of the docking and inspection modules carry distinct names, for any number of deputies too; each is enabled, has no slack and a bias that is not positive, and is strengthened by an odd strictly increasing function that vanishes at zero.", "quantifier": "all configurations and numbers of deputies", "why_tests_cant": "the number of constraints and generated names is unbounded and the strengtheners are functions on the reals", "anchors": ["run_time_assurance/zoo/cwh/docking_2d.py:Docking2dRTAMixin._setup_docking_constraints", "run_time_assurance/zoo/cwh/docking_3d.py:Docking3dRTAMixin._setup_docking_constraints", "run_time_assurance/zoo/cwh/inspection_1v1.py:Inspection1v1RTA._setup_constraints", "run_time_assurance/zoo/cwh/inspection_3d.py:InspectionRTA._setup_constraints"]}
{"id": "C68", "title": "The docking optimisation modules cannot run into an infeasible program in their flight envelope", "statement": "Within a flight envelope that contains the default limits, mass, thrust bounds and one kilometre of range, every state that meets the speed limits or misses them by a little (1 mm/s for the distance-dependent limit) admits an acceptable thrust, so a call neither raises the solver error nor falls back to the unfiltered control; a spacecraft moving by the Clohessy-Wiltshire equations under the returned thrust keeps every speed limit for ever, without any assumption that the programs along the way are feasible.", "quantifier": "all configurations of the envelope, module states, motions, pilots and durations", "why_tests_cant": "joint feasibility of several barrier conditions and thrust bounds over a continuum of states and trajectories", "anchors": ["run_time_assurance/zoo/cwh/docking_2d.py:Docking2dExplicitOptimizationRTA", "run_time_assurance/zoo/cwh/docking_3d.py:Docking3dExplicitOptimizationRTA", "run_time_assurance/rta/asif.py:ASIFModule._filter_control"]}
{"id": "C69", "title": "The filtered control is determined by the constraints, not by the solver", "statement": "For every module in use, state and desired control there is one answer that every correct quadratic program solver leads to whenever the call returns: the control part of the unique cheapest acceptable decision vector if there is an acceptable one, and otherwise the clipped desired control or the solver error. A correct solver that lets every call return exists.", "quantifier": "all modules with positive slack scales, states, desired controls and solvers", "why_tests_cant": "quantifies over all solvers and needs existence and uniqueness of the minimiser of arbitrary programs", "anchors": ["run_time_assurance/rta/asif.py:ASIFModule._filter_control", "run_time_assurance/rta/asif.py:ASIFModule._optimize"]}
{"id": "C70", "title": "Compiling a module does not change what it does", "statement": "An explicit or implicit ASIF module or a simplex module whose functions are compiled gives, for every history of calls and assignments, the same controls, exceptions and reported data as the same module without compilation.", "quantifier": "all modules, histories and ways in which arguments share a compiled version", "why_tests_cant": "quantifies over all histories, and the effect of a captured attribute only shows after a later assignment; the repository's tests never compare the two paths", "anchors": ["run_time_assurance/rta/asif.py:ASIFModule.compose", "run_time_assurance/rta/simplex.py:SimplexModule.compose", "run_time_assurance/constraint.py:ConstraintModule"]}
{"id": "C71", "title": "Compiling a backup controller does not change what the module does", "statement": "A simplex or implicit ASIF module with a compiled backup controller (the default) gives for every history the same observations as with the plain controller, whether the controller has internal state or not.", "quantifier": "all controllers, modules of both kinds and histories", "why_tests_cant": "quantifies over all controllers and histories; no controller in the repository has internal state, so no test reaches the failing path", "anchors": ["run_time_assurance/controller.py:RTABackupController._compose", "run_time_assurance/controller.py:RTABackupController.generate_control"]}
{"id": "C72", "title": "A solver of limited accuracy costs a proportional amount of safety, and no bound", "statement": "If the solver satisfies each inequality only up to a tolerance, every control returned without the infeasibility warning is still inside the control bounds, and each enabled barrier condition and each direct inequality fails by at most the tolerance times one plus the sum of the absolute influences of the control entries on it.", "quantifier": "all tolerances, solvers of that accuracy, modules, histories, states and desired controls", "why_tests_cant": "quantifies over all solver errors within the tolerance and over all constraint sets; a test sees the error of one solver on chosen programs", "anchors": ["run_time_assurance/rta/asif.py:ASIFModule._optimize", "run_time_assurance/rta/asif.py:ExplicitASIFModule", "run_time_assurance/rta/base.py:RTAModule._clip_control"]}
{"id": "C73", "title": "Calling the filter once per step keeps the constraint up to a known allowance", "statement": "If the module is called once every T time units and its control is held in between, a constraint whose strengthening term is at most a times its value stays above minus (solver error + L T / 2) / a, where L bounds how fast the rate of the constraint falls between calls, provided a T <= 1; a bias of minus that amount keeps the constraint itself non-negative. With a T > 1 a module that never warns can leave the safe set.", "quantifier": "all systems, constraints, periods, numbers of calls, desired controls and solvers of the given accuracy", "why_tests_cant": "speaks about every instant between the calls of all closed loops; a simulation samples a few trajectories at the same instants as the filter", "anchors": ["run_time_assurance/rta/asif.py:ExplicitASIFModule", "run_time_assurance/rta/base.py:RTAModule.filter_control", "run_time_assurance/constraint.py:ConstraintStrengthener"]}
{"id": "C74", "title": "The lookahead covers the backup window on IEEE doubles", "statement": "The number of lookahead steps of an implicit module, computed with python floats, is at least the number of whole steps that fit in the backup window and at most the number that fit in a window longer by one rounding error; a window that is exactly k steps long gives k steps. A step size of zero raises ZeroDivisionError. Windows and steps written as decimals count as the doubles python reads, so a window of 0.3 has two steps of 0.1.", "quantifier": "all finite doubles with a window below 2^53 steps", "why_tests_cant": "rounding of a quotient over all pairs of doubles; a test checks a few pairs, and losing the last step of the lookahead changes no other observable value", "anchors": ["run_time_assurance/rta/simplex.py:ImplicitSimplexModule.integrate", "run_time_assurance/rta/asif.py:ImplicitASIFModule._generate_barrier_constraint_mats"]}
{"id": "C75", "title": "A latch holds for its time on IEEE doubles", "statement": "After an intervention a simplex module keeps using the backup control while the time since then is below the latch time, up to one rounding error per call, and then asks the monitor again; the latch always ends.", "quantifier": "all finite latch times, all sequences of positive step sizes and monitor answers", "why_tests_cant": "rounding accumulates over unboundedly many calls", "anchors": ["run_time_assurance/rta/simplex.py:SimplexModule._filter_control"]}
{"id": "C76", "title": "An episode lasts for the simulation time on IEEE doubles", "statement": "A test episode with the default end condition ends at the first step whose exact time reaches the simulation time, up to one rounding error per step, and always ends.", "quantifier": "all finite simulation times and positive step sizes", "why_tests_cant": "rounding accumulates over unboundedly many steps, and termination is not testable", "anchors": ["run_time_assurance/utils/sample_testing.py:DataTrackingSampleTestingModule.simulate_episode", "run_time_assurance/utils/sample_testing.py:BaseSampleTestingModule._check_done_conditions"]}
{"id": "C77", "title": "The stopping backup controllers brake and bring the velocity to zero", "statement": "The thrust commanded by a stopping backup controller of the docking and inspection modules always acts against the velocity, so that it takes kinetic energy out of the motion; it depends on the velocity only, is zero exactly at rest, and the controlled motion comes to rest and stays at rest.", "quantifier": "all masses, mean motions, states and motions of the controlled spacecraft, for any solution of the Riccati equation used for the gain", "why_tests_cant": "the gain is a numerical solution for one mass and mean motion; the sign of the thrust along the velocity is a statement about all states and about every such gain", "anchors": ["run_time_assurance/zoo/cwh/docking_2d.py:Docking2dStopLQRBackupController", "run_time_assurance/zoo/cwh/docking_3d.py:Docking3dStopLQRBackupController"]}
{"id": "C78", "title": "The library's modules enforce the physical conditions their constraints are named after", "statement": "Every constraint that a docking, inspection or integrator module sets up measures the physical quantity it is named after (relative speed, velocity component, distance from the chief or another deputy with its braking distance, drift clearance, clearance from the sun), in the position and velocity entries of the state, and is enforced with its strengthening polynomial, margin and default control bounds.", "quantifier": "all settings, all states, any number of deputies", "why_tests_cant": "a wrong entry, sign or factor in one of some fifteen constraints changes the enforced condition only at states a test does not visit", "anchors": ["run_time_assurance/zoo/cwh/docking_2d.py:Docking2dRTAMixin._setup_docking_constraints", "run_time_assurance/zoo/cwh/docking_3d.py:Docking3dRTAMixin._setup_docking_constraints", "run_time_assurance/zoo/cwh/inspection_1v1.py:Inspection1v1RTA._setup_constraints", "run_time_assurance/zoo/cwh/inspection_1v1.py:DiscreteInspection1v1RTA._setup_constraints", "run_time_assurance/zoo/cwh/inspection_3d.py:InspectionRTA._setup_constraints", "run_time_assurance/zoo/integrators/integrator_1d.py:ConstraintIntegrator1dDockingCollisionExplicit"]}
{"id": "C79", "title": "A constraint without a given strengthener is strengthened as documented", "statement": "A constraint object of the library created without a strengthening function uses the polynomial that the documentation of its class names as the default, so a user who reads the documentation knows how fast the boundary of the safe set may be approached.", "quantifier": "all constraint classes of the library with a default strengthener, all parameters, all constraint values", "why_tests_cant": "tests of a module see the effect of the default only where its constraint is active, and none compares it with the documented polynomial", "anchors": ["run_time_assurance/zoo/cwh/docking_3d.py:ConstraintCWH3dRelativeVelocity", "run_time_assurance/zoo/cwh/docking_2d.py:ConstraintDocking2dRelativeVelocity", "run_time_assurance/zoo/cwh/inspection_1v1.py:ConstraintCWHChiefCollision", "run_time_assurance/zoo/cwh/inspection_1v1.py:ConstraintCWHConicKeepOutZone", "run_time_assurance/zoo/cwh/inspection_1v1.py:ConstraintCWHMaxDistance", "run_time_assurance/zoo/cwh/inspection_1v1.py:ConstraintPassivelySafeManeuver", "run_time_assurance/zoo/cwh/inspection_3d.py:ConstraintCWHDeputyCollision", "run_time_assurance/constraint.py:ConstraintMagnitudeStateLimit", "run_time_assurance/zoo/integrators/integrator_1d.py:ConstraintIntegrator1dDockingCollisionExplicit"]}
{"id": "C80", "title": "An optimization module never works around a missing strengthening function", "statement": "An optimization module one of whose constraints was given no strengthening function returns no control: every call raises AssertionError, for explicit, implicit and discrete modules. While that constraint is disabled it makes no difference.", "quantifier": "all modules after any history, all states and controls, the constraint at any position", "why_tests_cant": "a call that silently skipped the constraint would look normal at every state where it is not active; the set of module histories and constraint sets is unbounded", "anchors": ["run_time_assurance/constraint.py:ConstraintModule.alpha", "run_time_assurance/constraint.py:ConstraintModule.alpha_negative", "run_time_assurance/rta/asif.py:ExplicitASIFModule._generate_barrier_constraint_mats", "run_time_assurance/rta/asif.py:ImplicitASIFModule.invariance_constraints", "run_time_assurance/constraint.py:DiscreteCBFConstraint.cbf_fn"]}
{"id": "C81", "title": "In a safe state some control meets all conditions of the inspection module", "statement": "In every state in which no constraint of the inspection optimization module is violated there is a control within the module's bounds that meets the barrier conditions of all its constraints, so that the optimization has a solution and the call neither raises nor falls back to the unfiltered control.", "quantifier": "all masses, mean motions and settings with positive braking acceleration, all states", "why_tests_cant": "the set of states without solution is a thin region near the boundary of the constraints, in an eight-dimensional state space; simulations rarely visit it", "anchors": ["run_time_assurance/zoo/cwh/inspection_1v1.py:Inspection1v1RTA._setup_constraints", "run_time_assurance/zoo/cwh/inspection_1v1.py:ConstraintCWHMaxDistance", "run_time_assurance/zoo/cwh/inspection_1v1.py:ConstraintCWHChiefCollision", "run_time_assurance/rta/asif.py:ASIFModule.optimize"]}
{"id": "C82", "title": "The delta-v limit given to an inspection module is enforced", "statement": "A state whose delta-v entry exceeds the delta_v_limit given to an inspection module violates one of the constraints of the module.", "quantifier": "all limits, settings and states, both inspection modules with the option (continuous and discrete)", "why_tests_cant": "a test sees no difference until the accumulated delta-v exceeds the limit; that no constraint depends on it is a statement about all states", "anchors": ["run_time_assurance/zoo/cwh/inspection_1v1.py:Inspection1v1RTA", "run_time_assurance/zoo/cwh/inspection_1v1.py:DiscreteInspection1v1RTA"]}
{"id": "C83", "title": "An option given to a constructor takes effect or is rejected", "statement": "Building a module, a constraint or a sample test with keyword arguments either raises, or every keyword argument reaches, with its value, the part of the object that uses the option of that name, and every option not given has its documented default there. A misspelt or unsupported option, an argument by position and an unknown integration method are rejected. The same holds for options that user-defined subclasses pass on.", "quantifier": "all classes of the library, all keyword dictionaries and positional arguments, all chains of user-defined subclasses that hand on what they have no parameter for", "why_tests_cant": "the set of keyword dictionaries and of subclass constructors is unbounded; an option silently dropped on its way through several constructors leaves a working object with other settings", "anchors": ["run_time_assurance/rta/base.py:RTAModule.__init__", "run_time_assurance/rta/base.py:ConstraintBasedRTA.__init__", "run_time_assurance/rta/base.py:BackupControlBasedRTA.__init__", "run_time_assurance/rta/simplex.py:SimplexModule.__init__", "run_time_assurance/rta/asif.py:BaseOptimizationModule.__init__", "run_time_assurance/rta/asif.py:ImplicitASIFModule.__init__", "run_time_assurance/constraint.py:ConstraintModule.__init__", "run_time_assurance/zoo/cwh/docking_2d.py:Docking2dRTAMixin._setup_docking_properties", "run_time_assurance/utils/sample_testing.py:BaseSampleTestingModule.__init__"]}
{"id": "C84", "title": "Modules built separately do not influence each other", "statement": "In a program with several combined inspection modules, the answers and the state of one module do not depend on what is called on, assigned to or done with the deputies' modules of the others, unless the program gave them the same deputies' module.", "quantifier": "all programs building any number of modules, all calls, resets and assignments in any order, all deputies' modules", "why_tests_cant": "tests build one module at a time in a fresh state; interference needs interleavings of operations on several modules, of which there are infinitely many", "anchors": ["run_time_assurance/zoo/cwh/inspection_3d.py:CombinedInspectionRTA.__init__", "run_time_assurance/zoo/cwh/inspection_3d.py:InspectionRTA._get_state"]}
{"id": "C85", "title": "A combined module handles as many deputies as it was built for", "statement": "A combined inspection module built with num_deputies=k returns a control for states of k deputies; none of its calls fails on the shapes of arrays.", "quantifier": "all numbers of deputies, states with and without the sun's angle, constraints and solvers", "why_tests_cant": "the repository only runs the default number; the claim is about every number", "anchors": ["run_time_assurance/zoo/cwh/inspection_3d.py:CombinedInspectionRTA", "run_time_assurance/zoo/cwh/inspection_3d.py:InspectionRTA.state_transition_system"]}
{"id": "C86", "title": "The compilation settings mean what the documentation says", "statement": "A function of a module is compiled exactly if compilation is enabled and the given dictionary says so, or does not mention it and the documented default says so. Building a module does not change the caller's dictionary, so modules built with the same dictionary do not depend on each other.", "quantifier": "all kinds of modules, dictionaries and sequences of constructions", "why_tests_cant": "whether a function was compiled is not visible in its results, and the effect of a changed dictionary only appears in modules built later", "anchors": ["run_time_assurance/rta/base.py:ConstraintBasedRTA.__init__", "run_time_assurance/rta/asif.py:ImplicitASIFModule.compose", "run_time_assurance/rta/asif.py:ASIFModule.compose", "run_time_assurance/rta/simplex.py:SimplexModule.compose"]}
{"id": "C87", "title": "Modules given the same backup controller act independently", "statement": "In a program with several modules and backup controllers, what a caller sees of one module does not depend on the calls, resets and assignments made on the other modules, nor on controls asked of other controllers; also when modules were given the same controller object.", "quantifier": "all programs building any number of controllers, simplex and implicit ASIF modules, with all operations in any order, all controllers with and without state", "why_tests_cant": "interference needs interleaved operations on several modules; there are infinitely many, and the library's own controllers hide it because they have no state", "anchors": ["run_time_assurance/rta/base.py:BackupControlBasedRTA.__init__", "run_time_assurance/rta/base.py:BackupControlBasedRTA.backup_control", "run_time_assurance/controller.py:RTABackupController.generate_control", "run_time_assurance/rta/simplex.py:SimplexModule.reset"]}
{"id": "C88", "title": "The docking modules' stopping controllers keep the modules' limits", "statement": "A spacecraft of the default mass that is flown by the clipped commands of a docking module's own stopping controller, and that respects the module's speed limits when the controller takes over, respects them for as long as the controller flies it; so switching to the controller is never what breaks a limit. The commands depend on the mass and the mean motion only, not on the equation solver used.", "quantifier": "all mean motions up to the default and a little above, all motions of the controlled spacecraft within 15 km of the chief, planar and spatial, all initial states within the limits, every solver that returns a positive semidefinite solution of the Riccati equation", "why_tests_cant": "it is a statement about a continuous motion from every initial state with saturated thrusters, and about every solution of a matrix equation; simulation samples a few trajectories at discrete times", "anchors": ["run_time_assurance/zoo/cwh/docking_2d.py:Docking2dStopLQRBackupController", "run_time_assurance/zoo/cwh/docking_3d.py:Docking3dStopLQRBackupController", "run_time_assurance/zoo/cwh/docking_2d.py:Docking2dRTAMixin", "run_time_assurance/zoo/cwh/docking_3d.py:Docking3dRTAMixin", "run_time_assurance/rta/base.py:BackupControlBasedRTA.backup_control"]}
{"id": "C89", "title": "A docking flight under a switching module with its own controller meets the limits at every call", "statement": "A spacecraft of the default mass is flown step by step with whatever a docking module of the switching kind (explicit or implicit, with the stopping controller it makes itself) returns. If it is within the module's limits at the first call then it is within them at every later call, and also at every moment of a step in which the module overruled the desired control. Nothing is promised for the moments between the calls while the desired control is let through.", "quantifier": "all flights of any number of steps, all step lengths up to one second, all desired controls within the bounds, all latch times and windows, all mean motions up to the default and a little above, planar and spatial, within 15 km of the chief, every Riccati solver, a prediction that is right for the applied control", "why_tests_cant": "an induction over flights of any length combined with a differential inequality for the controlled motion under a held, clipped thrust; simulation samples a few flights", "anchors": ["run_time_assurance/zoo/cwh/docking_2d.py:Docking2dExplicitSwitchingRTA", "run_time_assurance/zoo/cwh/docking_2d.py:Docking2dImplicitSwitchingRTA", "run_time_assurance/zoo/cwh/docking_3d.py:Docking3dExplicitSwitchingRTA", "run_time_assurance/zoo/cwh/docking_3d.py:Docking3dImplicitSwitchingRTA", "run_time_assurance/rta/simplex.py:SimplexModule._filter_control"]}
{"id": "C90", "title": "The delta-v module tracks natural ellipses with an optimal gain", "statement": "The delta-v module obtains the gain of its backup controller from a solution of the Riccati equation for the spacecraft's motion and the integral of its state, so the gain is the optimal one for its mass and mean motion. On a natural ellipse the controller gives no thrust, the spacecraft stays on the ellipse, and the module does not switch unless the limit is already exceeded.", "quantifier": "all masses, mean motions and options, every solver, all motions on natural ellipses of any length, all call histories", "why_tests_cant": "that an equation has a solution is a statement about all matrices; a numerical solver returns a matrix for the rounded problem even if there is none, and a test sees only that one", "anchors": ["run_time_assurance/zoo/cwh/inspection_1v1.py:SwitchingDeltaVLimitRTA.__init__", "run_time_assurance/zoo/cwh/inspection_1v1.py:SwitchingDeltaVLimitRTA.backup_control", "run_time_assurance/zoo/cwh/inspection_1v1.py:InspectionCascadedRTA"]}
{"id": "C91", "title": "Compiled inspection modules treat the sun like uncompiled ones", "statement": "An inspection optimisation module, compiled (the default) or not, answers a call whose state lacks the sun's entries as a module whose sun stands still, and every other call as a module whose sun moves with the rate given at construction.", "quantifier": "both inspection modules (one deputy, several deputies), all rates, constraints, states of any length, step sizes, solvers, and all call histories, also with resets, switching off and update_constraint_values", "why_tests_cant": "which rate is in force depends on which step sizes were used before and after the first short state, so the answer depends on the whole history of the module; a test compares single calls", "anchors": ["run_time_assurance/zoo/cwh/inspection_1v1.py:Inspection1v1RTA._get_state", "run_time_assurance/zoo/cwh/inspection_1v1.py:Inspection1v1RTA.state_transition_system", "run_time_assurance/zoo/cwh/inspection_3d.py:InspectionRTA._get_state", "run_time_assurance/rta/asif.py:ASIFModule.compose"]}
{"id": "C92", "title": "A discrete module built without compilation follows its constraints' settings", "statement": "A discrete ASIF module built with jit_enable=False acts, in every call, on the settings (bias, strengthening function) its constraints have at that time; compiled or not, it answers every history of the documented operations as a module that reads everything anew in each call.", "quantifier": "all modules, solvers, histories of operations and assignments, and ways in which arguments share a compiled version", "why_tests_cant": "whether a function was compiled is not visible in its results; the effect of a captured setting only shows after a later assignment, and has to be excluded or shown for all later histories", "anchors": ["run_time_assurance/constraint.py:DiscreteCBFConstraint.__init__", "run_time_assurance/rta/asif.py:DiscreteASIFModule.__init__", "run_time_assurance/rta/asif.py:DiscreteASIFModule._filter_control"]}
{"id": "C93", "title": "A failed optimisation is announced to the user", "statement": "When the solver finds no solution, a module built with solver_exception=False announces this with a warning, and one built with solver_exception=True raises, in every call; a call in which safety was given up can be told from one in which the desired control was safe.", "quantifier": "all processes with any number of modules, all histories, all solvers", "why_tests_cant": "test runners switch off the once-per-location filter of python's warnings and start each test afresh; that later failures, also those of other modules, leave no trace is a statement about all processes and histories", "anchors": ["run_time_assurance/rta/asif.py:ASIFModule._optimize", "run_time_assurance/rta/asif.py:DiscreteASIFModule._filter_control", "run_time_assurance/utils/utils.py:SolverWarning"]}
{"id": "C94", "title": "A flight under the discrete inspection module keeps the module's limits at every call", "statement": "Let DiscreteInspection1v1RTA filter every control of a flight whose state advances by the module's own step of length dt. If the flight starts within the module's limits (each velocity component, the distance dependent speed, the maximum range, the collision distance, the hundred seconds of coasting, the sun's keep-out cone) and the optimisation never fails, every later state handed to the module is within them, whatever controls are desired.", "quantifier": "all module arguments, desired controls, flight lengths, start states and solvers that respect their reported tolerance, for every step length", "why_tests_cant": "flights have any length and any desired controls; whether the strengthening functions are gentle enough for the step length is a condition on all states of a flight, which test flights with a 1 s step never approach", "anchors": ["run_time_assurance/zoo/cwh/inspection_1v1.py:DiscreteInspection1v1RTA._setup_constraints", "run_time_assurance/zoo/cwh/inspection_1v1.py:DiscreteInspection1v1RTA.next_state_differentiable", "run_time_assurance/rta/asif.py:DiscreteASIFModule._filter_control", "run_time_assurance/constraint.py:DiscreteCBFConstraint"]}
{"id": "C95", "title": "The implicit optimisation module of the integrator can meet its own condition wherever its prediction is safe, and keeps it so", "statement": "Integrator1dDockingImplicitOptimizationRTA predicts full braking over its backup window. In every state from which none of the predicted positions is past zero, some control within the bounds meets the condition the module imposes, so that the call neither fails nor warns; and a vehicle flown with the controls the module returns, by the module's own step, never gets past zero.", "quantifier": "all masses, windows, step sizes, states, desired controls and solvers that meet their contract, and modules with any history", "why_tests_cant": "the states are a continuum and the prediction has any number of points; the one script of the repository that flies this module (test/integrator_rta/test_integrator_rta_1d.py) does so from a single start state, with a single step size of 0.02 s and the default window and mass", "anchors": ["run_time_assurance/zoo/integrators/integrator_1d.py:Integrator1dDockingImplicitOptimizationRTA", "run_time_assurance/zoo/integrators/integrator_1d.py:ConstraintIntegrator1dDockingCollisionImplicit", "run_time_assurance/rta/asif.py:ImplicitASIFModule.integrate", "run_time_assurance/rta/asif.py:ImplicitASIFModule.subsample_constraints"]}
