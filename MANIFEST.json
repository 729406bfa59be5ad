{
 "claims": [
  {
   "property": "C01",
   "status": "proved",
   "theorems": [
    "C01_system",
    "C01_default"
   ],
   "note": ""
  },
  {
   "property": "C02",
   "status": "proved",
   "theorems": [
    "C02_preview_is_rollout",
    "C02_preview_vector"
   ],
   "note": ""
  },
  {
   "property": "C03",
   "status": "proved",
   "theorems": [
    "C03_causality"
   ],
   "note": ""
  },
  {
   "property": "C04",
   "status": "proved",
   "theorems": [
    "C04_update_histories"
   ],
   "note": ""
  },
  {
   "property": "C05",
   "status": "proved",
   "theorems": [
    "C05_spanMatrix",
    "C05_spanMatrix_any",
    "C05_spanMatrix_negative"
   ],
   "note": "new_dim, addCols >= 0 fully characterised; the negative arguments are characterised by C05_spanMatrix_negative"
  },
  {
   "property": "C06",
   "status": "proved",
   "theorems": [
    "C06_spanVector",
    "C06_spanVector_any",
    "C06_spanVector_negative"
   ],
   "note": ""
  },
  {
   "property": "C07",
   "status": "proved",
   "theorems": [
    "C07_trajectory_constraint"
   ],
   "note": ""
  },
  {
   "property": "C08",
   "status": "proved",
   "theorems": [
    "C08_control_constraint"
   ],
   "note": ""
  },
  {
   "property": "C09",
   "status": "proved",
   "theorems": [
    "C09_mixed_constraint"
   ],
   "note": ""
  },
  {
   "property": "C10",
   "status": "partial",
   "theorems": [
    "C10_trajectory_bound_refuted",
    "C10_trajectory_bound_rows_partial",
    "C10_trajectory_bound_upper_partial"
   ],
   "note": "false of the code: update writes x_k <= lower instead of lower <= x_k (constraints.cpp 287-301, sign missing). Refuted by a counterexample; proved instead: the exact meaning of the rows (x_k <= lower and x_k <= upper), hence the property when no lower bound is given"
  },
  {
   "property": "C11",
   "status": "proved",
   "theorems": [
    "C11_control_bound"
   ],
   "note": ""
  },
  {
   "property": "C12",
   "status": "proved",
   "theorems": [
    "C12_extended_rows"
   ],
   "note": ""
  },
  {
   "property": "C13",
   "status": "proved",
   "theorems": [
    "C13_initialize",
    "C13_rejected_add",
    "C13_new_object"
   ],
   "note": "Object: initializeConstraint accepts exactly the documented shapes, otherwise throws domain_error and leaves the object unchanged; before that it has no rows. Controller: addConstraint that throws changes nothing at all, in any state."
  },
  {
   "property": "C14",
   "status": "proved",
   "theorems": [
    "C14_initialized_once",
    "C14_rejection_does_not_consume"
   ],
   "note": ""
  },
  {
   "property": "C15",
   "status": "proved",
   "theorems": [
    "C15_trajectory_cost"
   ],
   "note": ""
  },
  {
   "property": "C16",
   "status": "proved",
   "theorems": [
    "C16_target_cost"
   ],
   "note": ""
  },
  {
   "property": "C17",
   "status": "proved",
   "theorems": [
    "C17_control_cost"
   ],
   "note": ""
  },
  {
   "property": "C18",
   "status": "proved",
   "theorems": [
    "C18_mixed_cost"
   ],
   "note": ""
  },
  {
   "property": "C19",
   "status": "partial",
   "theorems": [
    "C19_solve_again_partial",
    "C19_trajectory_cost_after_n_solves_partial",
    "C19_mixed_cost_after_n_solves_partial",
    "C19_refuted"
   ],
   "note": "Controller level: without per-step trajectory/mixed costs, after any number of further solves the next solve poses the same QP (all entries). False of the code for per-step TrajectoryCost and MixedCost: update() accumulates with += into Q, E, f (and c) zeroed only by initializeCost, so the n-th solve minimises n times the cost (mixed: Q n times, c n(n+1)/2 times); C19_refuted shows another control is returned by an exact solver."
  },
  {
   "property": "C20",
   "status": "proved",
   "theorems": [
    "C20_x0_explicit_form"
   ],
   "note": ""
  },
  {
   "property": "C21",
   "status": "proved",
   "theorems": [
    "C21_weights",
    "C21_weight",
    "C21_only_weights_change"
   ],
   "note": ""
  },
  {
   "property": "C22",
   "status": "proved",
   "theorems": [
    "C22_initialize",
    "C22_rejected_add"
   ],
   "note": "Object: initializeCost accepts exactly the documented shapes. Controller: addCost that throws leaves the controller, the systems, the constraints, the other costs and the data of the rejected cost unchanged."
  },
  {
   "property": "C23",
   "status": "proved",
   "theorems": [
    "C23_autoSpan_trajectory",
    "C23_autoSpan_control",
    "C23_autoSpan_mixed",
    "C23_autoSpan_control_bound"
   ],
   "note": ""
  },
  {
   "property": "C24",
   "status": "proved",
   "theorems": [
    "C24_autoSpan_trajectory",
    "C24_autoSpan_control",
    "C24_autoSpan_mixed",
    "C24_same_as_per_step"
   ],
   "note": ""
  },
  {
   "property": "C25",
   "status": "partial",
   "theorems": [
    "C25_autoSpan_trajectory_bound_refuted",
    "C25_autoSpan_trajectory_bound_same_size_partial"
   ],
   "note": "false of the code: autoSpan repeats the bounds but not the list of bounded lines, so the repeated side binds the first step only. Proved instead: identity on bounds of equal length"
  },
  {
   "property": "C26",
   "status": "partial",
   "theorems": [
    "C26_constraint_autoSpan_failure",
    "C26_cost_autoSpan_failure",
    "C26_mixed_constraint_autoSpan_refuted",
    "C26_mixed_cost_autoSpan_refuted"
   ],
   "note": "true of every class but the mixed ones; false of MixedConstraint and MixedCost, whose first matrix is already spanned when the second is rejected"
  },
  {
   "property": "C27",
   "status": "proved",
   "theorems": [
    "C27_cost_matrix"
   ],
   "note": "Any set of registered costs, weights >= 0, any history of solves."
  },
  {
   "property": "C28",
   "status": "proved",
   "theorems": [
    "C28_assembly",
    "C28_assembly_initial_state"
   ],
   "note": "LMPC and InitialStateLMPC, any registered lists."
  },
  {
   "property": "C29",
   "status": "proved",
   "theorems": [
    "C29_registry"
   ],
   "note": "All defined histories of all modelled API calls (including rejected additions, repeated additions, automatic deletion)."
  },
  {
   "property": "C30",
   "status": "partial",
   "theorems": [
    "C30_registered_data_only_partial",
    "C30_refuted"
   ],
   "note": "The QP depends only on the system and on the data, weights and order of what is registered, whatever was added, solved with and removed before: true for costs, equality and inequality constraints. False of the code for control bounds: the lb/ub of a removed ControlBoundConstraint stay (C30_refuted), and for per-step costs kept across solves (C19)."
  },
  {
   "property": "C31",
   "status": "proved",
   "theorems": [
    "C31_clear"
   ],
   "note": ""
  },
  {
   "property": "C32",
   "status": "proved",
   "theorems": [
    "C32_owned_are_kept",
    "C32_pointers",
    "C32_held_are_kept"
   ],
   "note": "Every defined history followed by solve; owners outside the controller are counted per object, by the pointers made, copied and dropped in the history."
  },
  {
   "property": "C33",
   "status": "partial",
   "theorems": [
    "C33_unowned_are_dropped_partial",
    "C33_added_twice_refuted"
   ],
   "note": "Proved for objects registered at most once. False of the code for objects added more than once: the controller's own entries count as owners, so they are never dropped (C33_added_twice_refuted)."
  },
  {
   "property": "C34",
   "status": "partial",
   "theorems": [
    "C34_single_bound_partial",
    "C34_too_many_bounds",
    "C34_two_bounds_refuted"
   ],
   "note": "Proved for one registered bound. False of the code for two: the bounds are stacked one after the other in a vector of the size of one (Eigen assertion / out-of-bounds write)."
  },
  {
   "property": "C35",
   "status": "proved",
   "theorems": [
    "C35_failure_keeps",
    "C35_success_publishes",
    "C35_success_publishes_initial_state"
   ],
   "note": "All histories in which xInit gets vectors of the right size and A, B, d are rewritten only while isUpdated is false."
  },
  {
   "property": "C36",
   "status": "partial",
   "theorems": [
    "C36_end_to_end_partial",
    "C36_documented_constraints_partial",
    "C36_refuted"
   ],
   "note": "Admissible, optimal and unique for every exact solver, with any mix of constraints and costs. False of the code for TrajectoryBoundConstraint with a finite lower bound (the code imposes x <= lower), C36_refuted. Covers objects stretched by autoSpan, before or after registration (trajectory bounds excepted when built with lower and upper of different sizes, where the code is wrong: C25)."
  },
  {
   "property": "C37",
   "status": "proved",
   "theorems": [
    "C37_protocol_defined",
    "C37_next_call_defined",
    "C37_solve_defined",
    "C37_needs_system",
    "C37_two_bounds_undefined"
   ],
   "note": "The protocol is SpecProtocol.legal; the last two theorems show conditions of the protocol are needed."
  },
  {
   "property": "C38",
   "status": "proved",
   "theorems": [
    "C38_pinned_initial_state",
    "C38_same_control"
   ],
   "note": "Same feasible set above x0, objective equal up to a constant, and (exact solvers, weights >= 0) the same control, trajectory and initial state; for any two histories that lead to the same system and the same registered data."
  },
  {
   "property": "C39",
   "status": "partial",
   "theorems": [
    "C39_positive_definite_partial",
    "C39_default_refuted"
   ],
   "note": "Symmetric / positive semidefinite / positive definite as R is, with weights >= 0 and an exact inverse of the control block. False of the code without resetInitialStateCost: R is zero, not the documented 1e-6 I, and the matrix is then never positive definite (C39_default_refuted, for every such controller)."
  },
  {
   "property": "C40",
   "status": "partial",
   "theorems": [
    "C40_initial_state_in_bounds",
    "C40_results_kept_partial",
    "C40_failed_solve_refuted"
   ],
   "note": "True right after a successful solve and through every later call other than a failed solve, selectQPSolver, initializeController and system. False of the code after a failed solve: initialState() reads the raw answer of the last solver run."
  },
  {
   "property": "C41",
   "status": "partial",
   "theorems": [
    "C41_empty_construction_refuted",
    "C41_usable_after_resets_partial",
    "C41_same_controller_partial"
   ],
   "note": "False of the code as stated: R_, r_, x0lb_, x0ub_ stay empty, so solve() is undefined. After resetInitialStateCost and resetInitialStateBounds of the right sizes solve() is defined, and with the defaults of the other constructor it is the very same controller."
  },
  {
   "property": "C42",
   "status": "proved",
   "theorems": [
    "C42_quadprog_same_problem",
    "C42_quadprog_exact",
    "C42_quadprog_complete",
    "C42_solve_calls"
   ],
   "note": "Infinite bounds included; the int sum nrInEq + 2 nrVar must fit. Every solve of a protocol history calls the adapter with matrices of the announced sizes."
  },
  {
   "property": "C43",
   "status": "proved",
   "theorems": [
    "C43_lssol_same_problem",
    "C43_osqp_same_problem",
    "C43_osqp_bound_harmless",
    "C43_lssol_solves",
    "C43_osqp_solves",
    "C43_forwarding_solves",
    "C42_solve_calls"
   ],
   "note": "LSSOL from any previous state of its members. OSQP: among points with Aineq x >= -DBL_MAX, harmless for convex problems unless the answer reaches that bound. QLD forwards its arguments."
  },
  {
   "property": "C44",
   "status": "proved",
   "theorems": [
    "C44_each_flag",
    "C44_total",
    "C44_python_names"
   ],
   "note": "All 16 configurations, all values of the enumeration type. In python OSQP has no name."
  },
  {
   "property": "C45",
   "status": "partial",
   "theorems": [
    "C45_next_solve_partial",
    "C45_refuted"
   ],
   "note": "After xInit(x) the next solve has x0 = x, trajectory starting at x, b = z - Y x, c = E'x + f, feasible set and objective of x, Phi/Psi/xi untouched. False of the code for c of per-step MixedCost after a first solve (C45_refuted)."
  },
  {
   "property": "C46",
   "status": "partial",
   "theorems": [
    "C46_constraint_reused_partial",
    "C46_data_kept",
    "C46_constraint_refuted",
    "C46_bound_refuted",
    "C46_cost_reused_partial",
    "C46_cost_refuted",
    "C14_initialized_once"
   ],
   "note": "Any life (initializations, updates, failed initializations, no autoSpan) then a re-initialization: same contents at every later update as a newly built object, unless the object had been given full-size data for one system and per-step data fits the other: the full-size flag is never cleared and update() is then undefined or leaves rows uninitialized (C46_constraint_refuted, C46_bound_refuted, C46_cost_refuted). ControlConstraint and ControlBound refuse a second initialization (C14)."
  },
  {
   "property": "C47",
   "status": "proved",
   "theorems": [
    "C47_timers"
   ],
   "note": "Four readings of a non-decreasing clock."
  },
  {
   "property": "C48",
   "status": "partial",
   "theorems": [
    "C48_name_types",
    "C48_rows_message",
    "C48_bound_sizes",
    "C48_mixed_message",
    "C48_other_messages",
    "C48_autospan_message_partial",
    "C48_first_size_lost",
    "C48_system_throws",
    "C48_constraint_throws",
    "C48_cost_throws",
    "C48_span_throws",
    "C48_weights_throws",
    "C48_system_message_partial",
    "C48_bias_refuted",
    "C48_constraint_message_partial",
    "C48_cost_message_partial",
    "C48_weights_message",
    "C48_span_message",
    "C48_autospan_message_refuted",
    "C48_target_message_refuted",
    "C48_bound_message_refuted",
    "C48_bound_message_partial",
    "C48_names_partial",
    "C48_names_refuted",
    "C48_cost_names"
   ],
   "note": "Every message of every throwing function of the model, with std::ostringstream(str) writing from the start. The strings are proved for every size; false of the code: MixedConstraint is named like ControlConstraint, a wrong bias is reported as 'state', a column mismatch of TargetCost as rows, and the first operand's size of the autospan message is overwritten. The file/function prefix is not modelled."
  },
  {
   "property": "C49",
   "status": "proved",
   "theorems": [
    "C49_optimal_from_initial_state"
   ],
   "note": "Whatever the history; autospanned objects included, per-step costs not solved with before (C19), no bounds left by a removed constraint (C30)."
  },
  {
   "property": "C50",
   "status": "partial",
   "theorems": [
    "C50_joint_minimum_partial",
    "C50_joint_minimum_refuted"
   ],
   "note": "False of the code: the part of the costs that depends on the initial state only is left out of the QP and E Q^-1 E' is put in its place, so another initial state can be strictly better (C50_joint_minimum_refuted). What is minimized is proved exactly (C50_joint_minimum_partial)."
  },
  {
   "property": "C51",
   "status": "partial",
   "theorems": [
    "C51_read_back_partial",
    "C51_unsupported",
    "C51_refuted"
   ],
   "note": "True of LSSOL and of maxIter and warmStart of OSQP. False of the tolerance of QLD and OSQP: they use it and report -1 (the getter is not overridden). GUROBISolver.cpp does not compile and is left out."
  },
  {
   "property": "C52",
   "status": "proved",
   "theorems": [
    "C52_success_iff_feasible",
    "C52_success_iff_admissible",
    "C52_success_iff_admissible_initial_state",
    "C52_success_iff_admissible_partial"
   ],
   "note": "The problem posed: all histories, both controllers. The registered constraints themselves: both controllers, any exact and complete solver, autospanned objects included (InitialStateLMPC: positive definite R and exact inverse, see C39); C52_success_iff_admissible_partial is the instance for QuadProg on an exact and complete library."
  },
  {
   "property": "C53",
   "status": "proved",
   "theorems": [
    "C53_only_meaning_matters",
    "C53_order_irrelevant",
    "C53_equality_is_two_inequalities",
    "C53_bounds_are_inequalities",
    "C53_weights_linear",
    "C53_change_of_coordinates"
   ],
   "note": "LMPC, both solves successful and meeting the conditions of C36 (record posed). Coordinates: any linear map T, square or not; bounds of the trajectory are left out there (they are not preserved)."
  },
  {
   "property": "C54",
   "status": "proved",
   "theorems": [
    "C54_more_constraints",
    "C54_success_monotone"
   ],
   "note": "LMPC, conditions of C36."
  },
  {
   "property": "C55",
   "status": "proved",
   "theorems": [
    "C55_control_affine"
   ],
   "note": "LMPC, conditions of C36; any rational t."
  },
  {
   "property": "C56",
   "status": "proved",
   "theorems": [
    "C56_optimal_cost_convex",
    "C56_success_set_convex"
   ],
   "note": "LMPC, conditions of C36."
  },
  {
   "property": "C57",
   "status": "proved",
   "theorems": [
    "C57_alone",
    "C57_next_solve",
    "C57_optimal",
    "C57_one_controller",
    "C57_shared_cost_refuted"
   ],
   "note": "All that is left of another controller's solve is that the shared preview system is up to date. C57_shared_cost_refuted: a per-step mixed cost given to two controllers does couple them (the condition is needed)."
  },
  {
   "property": "C58",
   "status": "proved",
   "theorems": [
    "C58_prediction",
    "C58_any_arithmetic",
    "C58_exact",
    "C58_exact_arithmetic",
    "arith64_accurate",
    "arith64_fma_accurate"
   ],
   "note": "Unbounded exponent: no overflow, no underflow, no NaN."
  },
  {
   "property": "C59",
   "status": "proved",
   "theorems": [
    "C59_trajectory_constraint",
    "C59_mixed_constraint",
    "C59_trajectory_bound",
    "C59_control_constraint",
    "C59_control_bound",
    "C59_met",
    "C59_solution"
   ],
   "note": "Same arithmetic as C58. TrajectoryBoundConstraint: the rows of C10, with the reversed lower bounds."
  },
  {
   "property": "C60",
   "status": "proved",
   "theorems": [
    "C60_rest_of_plan",
    "C60_rest_succeeds"
   ],
   "note": "LMPC, conditions of C36. Data accepted with both horizons is necessarily per step, this is proved."
  },
  {
   "property": "C61",
   "status": "proved",
   "theorems": [
    "C61_trajectory_cost",
    "C61_target_cost",
    "C61_control_cost",
    "C61_mixed_cost",
    "C61_objective",
    "C61_near_optimal",
    "C61_exact"
   ],
   "note": "Same arithmetic as C58. Per-step trajectory and mixed costs: the first update (they accumulate afterwards: C19)."
  },
  {
   "property": "C62",
   "status": "proved",
   "theorems": [
    "C62_moved_goes_on",
    "C62_names",
    "C62_move_keeps",
    "C62_without_moves",
    "C62_moved_from_undefined",
    "C62_no_solver",
    "C62_reused",
    "C62_stale_counts"
   ],
   "note": "Several controllers (C57 model) plus moves. Not modelled: self-assignment and slicing an InitialStateLMPC into an LMPC. Assumes that a std::vector moved from is empty and that Eigen takes (constructor) or swaps (assignment) the storage."
  },
  {
   "property": "C63",
   "status": "proved",
   "theorems": [
    "C63_end_to_end",
    "C63_end_to_end_initial_state",
    "C63_kth_solve",
    "C63_first_solve"
   ],
   "note": "Same scope as C36/C49 (histories that follow the protocol, even trajectory bounds, no bounds of a removed constraint left), without their hypothesis on per-step costs. States what the code does; C19 and C36 record that it is not what the documentation says."
  },
  {
   "property": "C64",
   "status": "proved",
   "theorems": [
    "C64_closed_loop",
    "C64_recursive_feasibility"
   ],
   "note": "LMPC, the constraints are objects the user keeps; histories before the loop as in C63. The state given to xInit is the predicted one (no disturbance)."
  },
  {
   "property": "C65",
   "status": "proved",
   "theorems": [
    "C65_announced",
    "C65_kinds",
    "C65_silence"
   ],
   "note": "Every defined history followed by solve; the warnings are those of the loops that erase the entries. The names of the constraints are those of C48 (MixedConstraint is called Control ...)."
  },
  {
   "property": "C66",
   "status": "partial",
   "theorems": [
    "C66_inform_partial",
    "C66_passed_on",
    "C66_print_level",
    "C66_iter_refuted",
    "C66_unknown_refuted"
   ],
   "note": "The library's status, count and text are data of the model. True but for two points: iter() of QLD is always 0 (not overridden), and inform() of QuadProg prints nothing for a status other than 0, 1, 2."
  },
  {
   "property": "C67",
   "status": "proved",
   "theorems": [
    "C67_descent",
    "C67_spent",
    "C67_bounded",
    "C67_additive"
   ],
   "note": "LMPC; the hypotheses (record settles) are those of C64 plus kept, non-accumulating costs that are sums over the steps. Per-step TrajectoryCost and MixedCost accumulate over the turns (C63) and are excluded."
  },
  {
   "property": "C68",
   "status": "proved",
   "theorems": [
    "C68_same_answer",
    "C68_start_feasible",
    "C68_some_start"
   ],
   "note": "Any two histories (LMPC, InitialStateLMPC) with the same model, constraints and costs, in any order and through any objects; conditions of C36/C49 (records posed, posed_free). C68_some_start needs a positive definite R and an exact inverse (otherwise the minimum need not be attained)."
  },
  {
   "property": "C69",
   "status": "proved",
   "theorems": [
    "C69_what_is_minimized",
    "C69_initial_cost_only",
    "C69_even",
    "C69_default_ignores_costs"
   ],
   "note": "Says exactly what the choice of the initial state minimizes, for every history meeting the conditions of C49, nonnegative weights, exact solver and exact inverse: completes C50 (where the joint minimum is refuted)."
  },
  {
   "property": "C70",
   "status": "proved",
   "theorems": [
    "C70_owned_kept",
    "C70_lone_dropped",
    "C70_shared_stay",
    "C70_registry"
   ],
   "note": "For every program with any number of controllers on shared preview systems, constraints and costs (Controllers.v), any history, any solver. The pointers of the user are counted from the history (SpecController.v), not read from the model's state. As in C33, an object registered twice in the same controller is not dropped."
  },
  {
   "property": "C71",
   "status": "proved",
   "theorems": [
    "C71_no_undefined_behaviour",
    "C71_rounded_end_to_end",
    "C71_exact_solver",
    "C71_no_rounding",
    "C71_times_and_verdict"
   ],
   "note": "No undefined behaviour: both controllers. Meaning of the answer: LMPC (InitialStateLMPC: C72). Conditions of C36 (fresh per-step costs, no stale bounds, trajectory bounds given with one size). Trajectory bounds as copra imposes them (C10). Competitors V must meet the rows with the margin of their rounding errors, which a state-dependent equality allows only when its rounding errors vanish. No overflow, underflow, NaN."
  },
  {
   "property": "C72",
   "status": "proved",
   "theorems": [
    "C72_rounded_initial_state",
    "C72_no_rounding"
   ],
   "note": "Conditions of C49 (fresh per-step costs, no stale bounds, trajectory bounds given with one size). Trajectory bounds as copra imposes them (C10). Competitors from the same initial state: the corner of the cost matrix (the numerical inverse of the code) plays no part. No overflow, underflow, NaN."
  },
  {
   "property": "C73",
   "status": "proved",
   "theorems": [
    "C73_close_to_best",
    "C73_control_constraints",
    "C73_rounded_vs_exact"
   ],
   "note": "Conditions of C71 (LMPC) and nonnegative weights. C73_close_to_best: any set of competitors closed under middles; C73_control_constraints and C73_rounded_vs_exact: exact solver, constraints on controls alone (state-dependent rows are met up to rounding errors only, so the two feasible sets differ). C73_rounded_vs_exact compares the ends of the two runs of one history with the same system, lists and costs."
  },
  {
   "property": "C74",
   "status": "proved",
   "theorems": [
    "C74_same_outcomes",
    "C74_same_protocol",
    "C74_same_controls",
    "C74_rounded_solve",
    "C74_rounded_initial_solve"
   ],
   "note": "C74_same_outcomes: where both runs are defined, for any arithmetic. C74_same_protocol: accurate arithmetics; then both are defined. C74_same_controls: conditions of C73_rounded_vs_exact, on the exact run alone. Solvers are not compared: both may answer anything. The statuses m_sol / answers of solvers are among the numbers left free."
  },
  {
   "property": "C75",
   "status": "proved",
   "theorems": [
    "C75_close_to_best",
    "C75_control_constraints"
   ],
   "note": "Conditions of C72 and nonnegative weights; the limits of C73. Competitors from the initial state that the controller chose; how far that state is from the exact choice is not bounded (it depends on the numerical inverse). C75_close_to_best assumes the chosen state within its bounds (C75_control_constraints proves it for an exact solver)."
  }
 ]
}