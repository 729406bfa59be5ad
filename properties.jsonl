{"id": "C01", "title": "PreviewSystem::system accepts exactly the well-dimensioned systems and is all-or-nothing", "statement": "PreviewSystem::system(state, control, bias, xInit, n) throws std::domain_error exactly when state is not square, or the row counts of state, control, bias and xInit differ, or n <= 0; when it throws, every public field of the object is what it was before the call; when it returns, x0/A/B/d are the arguments, the dimension fields are xDim=state.cols, uDim=control.cols, nrUStep=n, nrXStep=n+1, fullXDim=xDim*(n+1), fullUDim=uDim*n, and isUpdated is false. The only undefined case is 32-bit overflow of one of those dimension products.", "quantifier": "all matrices and vectors of all sizes, all (also negative) step counts, all previous object states", "why_tests_cant": "tests use five wrong shapes on one fresh object; they cannot show that no other shape is accepted, nor that a failed call leaves an arbitrary earlier object untouched", "anchors": ["src/PreviewSystem.cpp:PreviewSystem::system", "include/PreviewSystem.h:PreviewSystem"]}
{"id": "C02", "title": "Phi, Psi, xi reproduce the dynamics", "statement": "After system(...) and an update (explicit updateSystem or the one done by solve), for every initial state and every stacked control U the stacked vector Phi*x0 + Psi*U + xi is exactly the trajectory x_0, x_1 = A x_0 + B u_0 + d, ..., x_N of the linear system.", "quantifier": "all A, B, d, x0, U, all dimensions and horizons N >= 1", "why_tests_cant": "a test checks one system and one horizon; the recursion must be right for every horizon and dimension", "anchors": ["src/PreviewSystem.cpp:PreviewSystem::updateSystem", "include/PreviewSystem.h:PreviewSystem"]}
{"id": "C03", "title": "Causality of the preview", "statement": "In an updated preview system the state previewed at step k does not depend on the controls applied at step k or later: two control vectors equal on their first k steps give the same x_0..x_k, and block (k,l) of Psi is zero for l >= k.", "quantifier": "all systems, horizons, steps k, pairs of control vectors", "why_tests_cant": "needs quantification over all pairs of control sequences", "anchors": ["src/PreviewSystem.cpp:PreviewSystem::updateSystem"]}
{"id": "C04", "title": "Updating is cached, repeatable and re-doable after changing the model", "statement": "updateSystem sets isUpdated and calling it again changes nothing; after the user replaces A, B, d by matrices of the same size and clears isUpdated (the documented way to force an update), the next update yields the matrices of the new system, with nothing left of the old one; changing only the initial state with xInit needs no update.", "quantifier": "all histories of system / set A,B,d / xInit / updateSystem calls on a preview system that keep the dimensions", "why_tests_cant": "stale-block bugs appear only for particular call histories", "anchors": ["src/PreviewSystem.cpp:PreviewSystem::updateSystem", "include/PreviewSystem.h:PreviewSystem::isUpdated", "include/PreviewSystem.h:PreviewSystem::xInit"]}
{"id": "C05", "title": "AutoSpan::spanMatrix builds the block-diagonal repetition", "statement": "spanMatrix(mat, new_dim, addCols) does nothing when mat.rows() == new_dim; throws std::domain_error leaving mat unchanged when new_dim is not a multiple of mat.rows(); otherwise mat becomes the block-diagonal matrix with new_dim/rows copies of mat followed by addCols*cols zero columns. For new_dim, addCols >= 0 it is undefined (integer division by zero) exactly when mat has no rows and new_dim is not 0; a negative new_dim that is a multiple of mat.rows() is undefined too.", "quantifier": "all matrices, all new_dim, all addCols", "why_tests_cant": "unbounded sizes; error-path state and the zero-row input are not tested", "anchors": ["src/AutoSpan.cpp:AutoSpan::spanMatrix", "include/AutoSpan.h"]}
{"id": "C06", "title": "AutoSpan::spanVector repeats the vector", "statement": "spanVector(vec, new_dim) does nothing when sizes agree; throws std::domain_error leaving vec unchanged when new_dim is not a multiple of vec.rows(); otherwise entry i of the result is entry i mod rows of the argument. For new_dim >= 0 it is undefined exactly when vec is empty and new_dim is not 0; a negative multiple of vec.rows() is undefined too.", "quantifier": "all vectors, all new_dim", "why_tests_cant": "unbounded sizes; error-path state is not tested", "anchors": ["src/AutoSpan.cpp:AutoSpan::spanVector"]}
{"id": "C07", "title": "A trajectory constraint means E x_k <= f (or = f) at every previewed step", "statement": "After addConstraint and solve have updated it, the rows (A(), b()) of a TrajectoryConstraint built from a per-step pair (E,f) hold for a control U exactly when the trajectory generated by U from the current x0 satisfies E x_k <= f (= f for an equality) for every k = 0..N; built from a full-horizon pair they hold exactly when E X <= f (= f).", "quantifier": "all systems, horizons, E, f (f may contain infinities), all U, step and full-size entries", "why_tests_cant": "equivalence of feasible sets quantifies over all U", "anchors": ["src/constraints.cpp:TrajectoryConstraint::initializeConstraint", "src/constraints.cpp:TrajectoryConstraint::update"]}
{"id": "C08", "title": "A control constraint means G u_k <= f (or = f) at every step", "statement": "The rows of a ControlConstraint hold for U exactly when G u_k <= f (= f) for every k = 0..N-1 (per-step entry), or G U <= f (= f) (full entry).", "quantifier": "all systems, horizons, G, f, U, both entry kinds", "why_tests_cant": "equivalence of feasible sets quantifies over all U", "anchors": ["src/constraints.cpp:ControlConstraint::initializeConstraint", "src/constraints.cpp:ControlConstraint::update"]}
{"id": "C09", "title": "A mixed constraint means E x_k + G u_k <= f (or = f) at every control step", "statement": "The rows of a MixedConstraint hold for U exactly when E x_k + G u_k <= f (= f) for every k = 0..N-1 along the trajectory generated by U (per-step entry), or E X + G U <= f (= f) (full entry).", "quantifier": "all systems, horizons, E, G, f, U, both entry kinds", "why_tests_cant": "the implementation copies shifted blocks of the previous row block; only induction over the horizon shows they are the right ones", "anchors": ["src/constraints.cpp:MixedConstraint::update"]}
{"id": "C10", "title": "A trajectory bound constraint keeps the trajectory between lower and upper", "statement": "The rows of a TrajectoryBoundConstraint(lower, upper) hold for U exactly when lower <= x_k <= upper componentwise at every step k = 0..N (infinite entries imposing nothing).", "quantifier": "all systems, horizons, bounds, U", "why_tests_cant": "the existing tests use only -inf lower bounds or bounds that are not active", "anchors": ["src/constraints.cpp:TrajectoryBoundConstraint::update", "include/constraints.h:TrajectoryBoundConstraint"]}
{"id": "C11", "title": "A control bound constraint bounds every control step", "statement": "After update, lower()/upper() of a ControlBoundConstraint are the per-step bounds repeated N times, or the full-size bounds as given; hence lower() <= U <= upper() exactly when lower <= u_k <= upper for each step k.", "quantifier": "all systems, horizons, bounds, U, both entry kinds", "why_tests_cant": "quantifies over all horizons and U", "anchors": ["src/constraints.cpp:ControlBoundConstraint::initializeConstraint", "src/constraints.cpp:ControlBoundConstraint::update"]}
{"id": "C12", "title": "The extended rows [Y A], z describe the same constraint with x0 left free", "statement": "For every equality/inequality constraint class, for every initial state x and control U: Y x + A U <= z (= z) exactly when A U <= b (= b) would hold had the preview system been given the initial state x; in particular b = z - Y x0 at the current x0, and A, Y, z do not depend on x0.", "quantifier": "all constraint classes, systems, initial states x, controls U", "why_tests_cant": "quantifies over all initial states and controls", "anchors": ["src/constraints.cpp:*::update", "include/constraints.h:EqIneqConstraint"]}
{"id": "C13", "title": "Constraint initialization rejects exactly the wrong shapes, without side effects on the controller", "statement": "addConstraint throws std::domain_error exactly when the row counts of the constraint's matrices and vectors differ or its column count matches neither the per-step nor the full-horizon dimension; a rejected constraint is not registered and the controller is unchanged.", "quantifier": "all shapes of E, G, f, lower, upper against all system dimensions, all controllers", "why_tests_cant": "tests try a handful of shapes", "anchors": ["src/constraints.cpp:*::initializeConstraint", "src/LMPC.cpp:LMPC::addConstraint"]}
{"id": "C14", "title": "Control and control-bound constraints can be initialized once only", "statement": "Adding a ControlConstraint or ControlBoundConstraint a second time (to the same or another controller, also after removing it) always throws std::runtime_error and changes nothing; a first initialization rejected with std::domain_error does not consume the object.", "quantifier": "all histories of addConstraint/removeConstraint calls", "why_tests_cant": "quantifies over call histories", "anchors": ["src/constraints.cpp:ControlConstraint::initializeConstraint", "src/constraints.cpp:ControlBoundConstraint::initializeConstraint"]}
{"id": "C15", "title": "Trajectory cost value", "statement": "After addCost and one solve, 1/2 U'Q U + c'U of a TrajectoryCost equals 1/2 sum_k ||M x_k - p||^2_W (per-step entry, k=0..N) or 1/2 (M X - p)'W(M X - p) (full entry), up to a constant independent of U, for every U.", "quantifier": "all systems, horizons, M, p, weights, U, both entry kinds", "why_tests_cant": "algebraic identity over all U", "anchors": ["src/costFunctions.cpp:TrajectoryCost::update"]}
{"id": "C16", "title": "Target cost value", "statement": "After addCost and solve, 1/2 U'QU + c'U of a TargetCost equals 1/2 ||M x_N - p||^2_W up to a constant independent of U.", "quantifier": "all systems, horizons, M, p, weights, U", "why_tests_cant": "algebraic identity over all U", "anchors": ["src/costFunctions.cpp:TargetCost::update"]}
{"id": "C17", "title": "Control cost value", "statement": "After addCost and solve, 1/2 U'QU + c'U of a ControlCost equals 1/2 sum_k ||N u_k - p||^2_W (per-step) or 1/2 (N U - p)'W(N U - p) (full entry), up to a constant independent of U.", "quantifier": "all systems, horizons, N, p, weights, U, both entry kinds", "why_tests_cant": "algebraic identity over all U", "anchors": ["src/costFunctions.cpp:ControlCost::update"]}
{"id": "C18", "title": "Mixed cost value", "statement": "After addCost and one solve, 1/2 U'QU + c'U of a MixedCost equals 1/2 sum_{k<N} ||M x_k + N u_k - p||^2_W (per-step) or 1/2 (M X + N U - p)'W(M X + N U - p) (full entry), up to a constant independent of U.", "quantifier": "all systems, horizons, M, N, p, weights, U, both entry kinds", "why_tests_cant": "algebraic identity over all U", "anchors": ["src/costFunctions.cpp:MixedCost::update"]}
{"id": "C19", "title": "Solving again does not change the problem", "statement": "Calling solve() repeatedly on an unchanged controller and preview system presents the same QP (Q, c, Aeq, beq, Aineq, bineq, lb, ub) to the solver each time: the k-th solve of a receding-horizon loop optimizes the documented cost, not an accumulation of the earlier ones.", "quantifier": "all controllers, all numbers of repetitions", "why_tests_cant": "every existing test that inspects a cost solves once per cost object, or only checks the terminal velocity", "anchors": ["src/costFunctions.cpp:TrajectoryCost::update", "src/costFunctions.cpp:MixedCost::update", "src/LMPC.cpp:LMPC::solve"]}
{"id": "C20", "title": "The x0-explicit cost form is consistent", "statement": "For every cost class after update, c = E' x0 + f where Q, E and f do not depend on x0: a cost updated with any other initial state x has the same Q and linear term E' x + f.", "quantifier": "all cost classes, systems, initial states", "why_tests_cant": "quantifies over all initial states", "anchors": ["src/costFunctions.cpp:*::update", "include/costFunctions.h:CostFunction"]}
{"id": "C21", "title": "weights() sets exactly the requested weights or throws and changes nothing", "statement": "weights(w) with as many rows as the cost replaces the weights; with a row count dividing the cost's, repeats w; otherwise throws std::domain_error leaving the weights unchanged; weight(x) sets all of them to x. None of them changes the number of weights. An empty w on a non-empty cost is an integer division by zero.", "quantifier": "all weight vectors and costs", "why_tests_cant": "unbounded sizes and error-path state", "anchors": ["include/costFunctions.h:CostFunction::weights", "include/costFunctions.h:CostFunction::weight"]}
{"id": "C22", "title": "Cost initialization rejects exactly the wrong shapes, without registering the cost", "statement": "addCost throws std::domain_error exactly when M/N/p row counts differ or the column counts match neither the per-step nor the full-horizon dimensions (per-step only for TargetCost); a rejected cost is not registered and the controller is unchanged.", "quantifier": "all shapes against all system dimensions, all controllers", "why_tests_cant": "tests try a handful of shapes", "anchors": ["src/costFunctions.cpp:*::initializeCost", "src/LMPC.cpp:LMPC::addCost"]}
{"id": "C23", "title": "autoSpan turns per-step data into an equivalent full-horizon entry (constraints)", "statement": "If one side of a Trajectory/Control/Mixed constraint is given per step and another over the full horizon, autoSpan() makes it a valid full-size entry whose rows, after addConstraint and update, are exactly those of the per-step meaning with the per-step data used at each step.", "quantifier": "all systems, horizons, mixed per-step/full inputs", "why_tests_cant": "tests only check that addConstraint does not throw after autoSpan", "anchors": ["src/constraints.cpp:*::autoSpan", "src/AutoSpan.cpp"]}
{"id": "C24", "title": "autoSpan turns per-step data into an equivalent full-horizon entry (costs)", "statement": "For Trajectory/Control/Mixed costs, spanning per-step data to the full horizon gives after one update the same Q and c as the per-step entry.", "quantifier": "all systems, horizons, M, N, p, weights", "why_tests_cant": "tests only check that addCost does not throw after autoSpan", "anchors": ["src/costFunctions.cpp:*::autoSpan"]}
{"id": "C25", "title": "autoSpan of trajectory bounds bounds every step", "statement": "If one bound of a TrajectoryBoundConstraint is given per step and the other over the full horizon, autoSpan() makes it equivalent to the full-size constraint in which the per-step bound is imposed at every step.", "quantifier": "all systems, horizons, bounds", "why_tests_cant": "tests only check that addConstraint does not throw after autoSpan", "anchors": ["src/constraints.cpp:TrajectoryBoundConstraint::autoSpan"]}
{"id": "C26", "title": "autoSpan failure leaves the object unchanged", "statement": "When autoSpan() of a constraint or cost throws std::domain_error, the object still has the data it was built with.", "quantifier": "all constraint and cost classes, all shapes", "why_tests_cant": "error-path state", "anchors": ["src/constraints.cpp:*::autoSpan", "src/costFunctions.cpp:*::autoSpan"]}
{"id": "C27", "title": "Q is symmetric positive definite for non-negative weights", "statement": "For any set of registered costs with non-negative weights the matrix Q() handed to the solver is symmetric and positive definite, also when no cost is registered (U'QU >= 1e-6 U'U).", "quantifier": "all controllers, costs, weights >= 0, histories of solves", "why_tests_cant": "a claim over all vectors U and all cost combinations", "anchors": ["src/LMPC.cpp:LMPC::updateSystem", "src/LMPC.cpp:LMPC::makeQPForm"]}
{"id": "C28", "title": "QP assembly: every registered cost and constraint appears exactly once, in order", "statement": "In solve(), Q = 1e-6 I + sum of the registered costs' Q, c = sum of their c; Aeq/beq (Aineq/bineq) are the rows of the registered equality (inequality) constraints stacked in order of addition with no row left unwritten, and nrEqConstr()/nrIneqConstr() are the row counts; the dimensions announced to the solver (SI_problem) are those of the matrices passed to it.", "quantifier": "all controllers, any number of costs and constraints of any size", "why_tests_cant": "unbounded number of registered objects", "anchors": ["src/LMPC.cpp:LMPC::makeQPForm", "src/LMPC.cpp:LMPC::updateConstraintMatrixSize", "src/LMPC.cpp:LMPC::Constraints::updateNr"]}
{"id": "C29", "title": "Registry consistency: removeConstraint is safe after any history", "statement": "After any sequence of add/remove/clear/solve operations, each registered constraint is listed exactly as often in the list of its own type as in the list of all constraints, in the same order; so removeConstraint never erases a past-the-end iterator.", "quantifier": "all histories of controller operations", "why_tests_cant": "invariant over unbounded histories", "anchors": ["src/LMPC.cpp:LMPC::addConstraintByType", "src/LMPC.cpp:LMPC::removeConstraint", "src/LMPC.cpp:LMPC::checkDeleteCostsAndConstraints"]}
{"id": "C30", "title": "Removing a constraint or cost removes its effect", "statement": "After removeConstraint(c) (removeCost(c)) the QP of the next solve is the one of a controller in which c was never registered, for every kind of constraint, control bounds included.", "quantifier": "all controllers and constraints", "why_tests_cant": "the existing test only looks for a deletion message", "anchors": ["src/LMPC.cpp:LMPC::removeConstraint", "src/LMPC.cpp:LMPC::makeQPForm"]}
{"id": "C31", "title": "clearConstraints forgets every constraint", "statement": "After clearConstraints() no constraint is registered, the counts are 0, lb/ub are -DBL_MAX/+DBL_MAX, and the next solve passes empty Aeq/Aineq and those bounds.", "quantifier": "all controllers and earlier histories", "why_tests_cant": "quantifies over earlier histories", "anchors": ["src/LMPC.cpp:LMPC::clearConstraints", "src/LMPC.cpp:LMPC::clearConstraintMatrices"]}
{"id": "C32", "title": "Automatic deletion: a constraint or cost still owned by the user is never dropped", "statement": "solve() never unregisters a constraint or cost that somebody outside the controller still holds a shared_ptr to, and never changes the order of the others.", "quantifier": "all controllers, ownership states, histories", "why_tests_cant": "depends on reference counts in arbitrary histories", "anchors": ["src/LMPC.cpp:LMPC::checkDeleteCostsAndConstraints"]}
{"id": "C33", "title": "Automatic deletion: a constraint or cost nobody else owns is dropped by solve", "statement": "After solve() no registered constraint or cost is owned by the controller alone, including objects that were added more than once.", "quantifier": "all controllers, ownership states, histories", "why_tests_cant": "depends on reference counts in arbitrary histories", "anchors": ["src/LMPC.cpp:LMPC::checkDeleteCostsAndConstraints"]}
{"id": "C34", "title": "Several control bound constraints can be combined", "statement": "Any number of ControlBoundConstraints accepted by addConstraint can be registered together and solve() is defined, imposing all of them.", "quantifier": "all numbers of bound constraints", "why_tests_cant": "no test solves with two bound constraints; the failure is an out-of-bounds write", "anchors": ["src/LMPC.cpp:LMPC::makeQPForm"]}
{"id": "C35", "title": "A failed solve keeps the previous result; a successful one publishes a consistent pair", "statement": "When solve() returns false, control() and trajectory() are unchanged; when it returns true, control() is the solver's solution and trajectory() is the exact trajectory of the system from the initial state under control().", "quantifier": "all controllers, systems, solver answers", "why_tests_cant": "quantifies over solver behaviour and systems", "anchors": ["src/LMPC.cpp:LMPC::solve", "src/LMPC.cpp:LMPC::updateResults"]}
{"id": "C36", "title": "End-to-end: solve returns the optimal constrained control", "statement": "If the QP solver returns a minimizer of the problem it is given, then after a successful first solve() of a controller the control U and trajectory X satisfy all registered constraints in their documented per-step/full-horizon meaning, and no other control that does so has a smaller documented total cost (sum of the registered weighted least-squares terms plus 1e-6 ||U||^2).", "quantifier": "all systems, horizons, sets of costs and constraints (of the classes whose meaning holds), all exact solvers", "why_tests_cant": "optimality quantifies over all competing controls", "anchors": ["src/LMPC.cpp:LMPC::solve", "src/constraints.cpp", "src/costFunctions.cpp", "src/PreviewSystem.cpp"]}
{"id": "C37", "title": "solve is defined under the documented protocol", "statement": "For every sequence of API calls on one controller that keeps the system dimensions, gives xInit vectors of the right size and registers at most one control bound constraint at a time, no call has undefined behaviour (out-of-bounds access, size mismatch, erase past the end, null dereference), as long as the numbers of constraint rows fit in int.", "quantifier": "all histories of API calls within the protocol", "why_tests_cant": "unbounded call histories", "anchors": ["src/LMPC.cpp", "src/constraints.cpp", "src/costFunctions.cpp"]}
{"id": "C38", "title": "InitialStateLMPC pinned to x0 is LMPC", "statement": "With x0 bounds equal to the system's x0, the QP of InitialStateLMPC admits (x0,U) exactly when the QP of LMPC with the same costs and constraints admits U, and for feasible points its objective is LMPC's objective plus a constant independent of U; hence the optimal controls coincide.", "quantifier": "all systems, costs, constraints, R, r, U", "why_tests_cant": "equivalence of two optimization problems over all U", "anchors": ["src/InitialStateLMPC.cpp:InitialStateLMPC::makeQPForm", "src/LMPC.cpp:LMPC::makeQPForm"]}
{"id": "C39", "title": "InitialStateLMPC cost matrix is positive definite", "statement": "The extended matrix [R + E Q^-1 E', E; E', Q] given to the solver is symmetric positive definite whenever R is symmetric positive definite and the costs have non-negative weights; with the default R it is so as well (documented default 1e-6 I).", "quantifier": "all controllers, costs with non-negative weights, R", "why_tests_cant": "claim over all vectors", "anchors": ["src/InitialStateLMPC.cpp:InitialStateLMPC::makeQPForm", "include/InitialStateLMPC.h:R_"]}
{"id": "C40", "title": "InitialStateLMPC results are consistent", "statement": "After a successful solve, initialState() lies within the initial-state bounds if the solver respects its bounds, trajectory() is the trajectory from initialState() under control(), and this remains so until the next successful solve.", "quantifier": "all controllers and histories", "why_tests_cant": "quantifies over solver answers and later calls", "anchors": ["src/InitialStateLMPC.cpp:InitialStateLMPC::updateResults", "src/InitialStateLMPC.cpp:InitialStateLMPC::initialState"]}
{"id": "C41", "title": "InitialStateLMPC can be built empty and initialized later", "statement": "InitialStateLMPC(flag) followed by initializeController(ps) is as usable as InitialStateLMPC(ps, flag): solve() is defined.", "quantifier": "all systems", "why_tests_cant": "no test uses the default constructor", "anchors": ["src/InitialStateLMPC.cpp:InitialStateLMPC::InitialStateLMPC", "src/InitialStateLMPC.cpp:InitialStateLMPC::makeQPForm"]}
{"id": "C42", "title": "QuadProg adapter solves the same problem", "statement": "The bounds XL <= x <= XU turned into 2n inequality rows give QuadProg a problem with exactly the same feasible set, and the row counts announced by SI_problem match the matrices passed by SI_solve.", "quantifier": "all QPs of all sizes, infinite bounds included", "why_tests_cant": "feasible-set equality over all x", "anchors": ["src/QuadProgSolver.cpp:QuadProgDenseSolver::SI_problem", "src/QuadProgSolver.cpp:QuadProgDenseSolver::SI_solve"]}
{"id": "C43", "title": "LSSOL and OSQP adapters solve the same problem", "statement": "The two-sided rows bl <= A x <= bu with A=[Aeq;Aineq] describe exactly Aeq x = beq and Aineq x <= bineq (for OSQP among points with Aineq x >= -DBL_MAX), with matching announced dimensions.", "quantifier": "all QPs of all sizes", "why_tests_cant": "feasible-set equality over all x", "anchors": ["src/LSSOLSolver.cpp:LSSOLSolver::SI_solve", "src/OSQPSolver.cpp:OSQPSolver::SI_solve"]}
{"id": "C44", "title": "Solver factory is total and both factories agree", "statement": "In every build configuration each SolverFlag value yields the solver of that name, DEFAULT yields QuadProg, and pythonSolverFactory agrees with solverFactory.", "quantifier": "all build configurations (2^4 optional solvers) and flags", "why_tests_cant": "a build tests one configuration", "anchors": ["src/solverUtils.cpp:solverFactory", "src/solverUtils.cpp:pythonSolverFactory"]}
{"id": "C45", "title": "Initial state updates take effect without rebuilding the system", "statement": "In a receding-horizon loop, after ps.xInit(x) the next solve uses x: trajectory() starts at x, every b() and c() is the one for x, and Phi, Psi, xi are not recomputed.", "quantifier": "all systems, initial states, costs, constraints", "why_tests_cant": "quantifies over all sequences of initial states", "anchors": ["include/PreviewSystem.h:PreviewSystem::xInit", "src/LMPC.cpp:LMPC::updateSystem"]}
{"id": "C46", "title": "Objects can be reused with another system", "statement": "A constraint or cost re-added (re-initialized) for a preview system of different dimensions behaves as a newly built object with the same data.", "quantifier": "all trajectory/mixed constraints and costs, all pairs of systems", "why_tests_cant": "quantifies over pairs of systems", "anchors": ["src/constraints.cpp:TrajectoryConstraint::initializeConstraint", "src/costFunctions.cpp:TrajectoryCost::initializeCost"]}
{"id": "C47", "title": "Timers", "statement": "After a solve, with a non-decreasing clock, 0 <= solveTime() <= solveAndBuildTime().", "quantifier": "all clock readings", "why_tests_cant": "timing is schedule dependent", "anchors": ["src/LMPC.cpp:LMPC::solve"]}
{"id": "C48", "title": "Names and error messages identify the problem", "statement": "name() distinguishes the constraint classes, and the dimension-mismatch messages contain the names and actual row counts of both offending matrices.", "quantifier": "all constraint classes, names and sizes", "why_tests_cant": "message content is never tested", "anchors": ["include/constraints.h:MixedConstraint", "src/debugUtils.cpp:throwMsgOnRowsAskAutoSpan", "src/debugUtils.cpp:throwMsgOnRowsOnPSxDim"]}
{"id": "C49", "title": "InitialStateLMPC: the control is optimal from the published initial state", "statement": "After a successful solve() of an InitialStateLMPC with an exact solver, initialState() is within its bounds, trajectory() is the trajectory from it under control(), and control() is admissible from it and minimizes the sum of the documented costs (plus 1e-6/2 ||U||^2) among the controls admissible from it; it is the only one.", "quantifier": "all histories of calls, systems, costs, constraints, bounds and costs of the initial state, exact solvers", "why_tests_cant": "optimality over all controls and histories", "anchors": ["src/InitialStateLMPC.cpp:InitialStateLMPC::makeQPForm", "src/InitialStateLMPC.cpp:InitialStateLMPC::updateResults"]}
{"id": "C50", "title": "InitialStateLMPC: initial state and control are jointly optimal", "statement": "After a successful solve() of an InitialStateLMPC with an exact solver, (initialState(), control()) minimizes the sum of the documented costs plus 1/2 x0'R x0 + r'x0 (and the regularization) among the initial states within bounds and the controls admissible from them.", "quantifier": "all histories of calls, systems, costs, constraints, R, r, exact solvers", "why_tests_cant": "optimality over all pairs", "anchors": ["src/InitialStateLMPC.cpp:InitialStateLMPC::makeQPForm", "include/InitialStateLMPC.h:resetInitialStateCost"]}
{"id": "C51", "title": "Solver settings read back what was set", "statement": "For each solver and each of maxIter, feasibilityTolerance and warmStart it accepts, the getter of SolverInterface returns the last value set, the value is the one the solver works with, and setting one does not change the others.", "quantifier": "all solvers, settings and values", "why_tests_cant": "quantifies over all values; getters are never tested", "anchors": ["src/SolverInterface.cpp:SolverInterface::SI_feasibilityTolerance", "src/QLDSolver.cpp:QLDSolver::SI_feasibilityTolerance", "src/OSQPSolver.cpp:OSQPSolver::SI_feasibilityTolerance", "src/LSSOLSolver.cpp:LSSOLSolver::SI_maxIter"]}
{"id": "C52", "title": "solve() succeeds exactly when the constraints can be satisfied", "statement": "With an exact solver that finds a solution whenever there is one, and non-negative weights, solve() of an LMPC returns true if and only if some control satisfies every registered constraint (a minimum is then always attained); solve() of an InitialStateLMPC with a positive definite R does so if and only if some initial state within its bounds and some control together satisfy them. (Trajectory bounds given with equal sizes, and no bounds left over from a removed constraint, see C30.)", "quantifier": "all histories of calls, systems, costs, constraints; exact and complete solvers", "why_tests_cant": "infeasibility is a statement about all controls; existence of a minimum is a theorem about all problems", "anchors": ["src/LMPC.cpp:LMPC::solve", "src/LMPC.cpp:LMPC::makeQPForm", "src/QuadProgSolver.cpp:QuadProgDenseSolver::SI_solve"]}
{"id": "C53", "title": "Only the meaning of what is registered matters", "statement": "Two controllers whose registered constraints admit the same controls and whose costs differ by a constant compute the same control (exact solver, non-negative weights). In particular the result does not depend on the order in which constraints or costs were added, on which objects carry them, on adding a constraint twice, on writing an equality as two inequalities or bounds as inequalities, nor on the choice of state coordinates.", "quantifier": "all pairs of histories of calls, systems, constraints, costs, weights, exact solvers", "why_tests_cant": "a relation between all pairs of equivalent programs", "anchors": ["src/LMPC.cpp:LMPC::addConstraint", "src/LMPC.cpp:LMPC::addCost", "src/LMPC.cpp:LMPC::makeQPForm", "src/LMPC.cpp:LMPC::solve"]}
{"id": "C54", "title": "Adding constraints never improves the optimum", "statement": "With more constraints and the same costs, solve() never ends with a smaller total cost; constraints that the control computed without them already satisfies leave the control unchanged; and if solve() succeeds with the additional constraints it succeeds without them (complete solver).", "quantifier": "all pairs of histories of calls, systems, constraints, costs, exact solvers", "why_tests_cant": "a relation between all pairs of programs", "anchors": ["src/LMPC.cpp:LMPC::addConstraint", "src/LMPC.cpp:LMPC::solve"]}
{"id": "C55", "title": "With equality constraints the control is affine in the initial state", "statement": "For a fixed system, costs and equality constraints, control() is an affine function of the initial state given by xInit: for initial states x1, x2 and t x1 + (1-t) x2 (any t) the controls u1, u2, u3 satisfy u3 = t u1 + (1-t) u2 (exact solver, non-negative weights, no control at the limits of the doubles).", "quantifier": "all systems, costs, equality constraints, initial states, real numbers t, histories of calls, exact solvers", "why_tests_cant": "a functional equation in the initial state", "anchors": ["src/LMPC.cpp:LMPC::solve", "src/PreviewSystem.cpp:PreviewSystem::xInit", "src/constraints.cpp:TrajectoryConstraint::update", "src/costFunctions.cpp:TrajectoryCost::update"]}
{"id": "C56", "title": "The optimal cost is convex in the initial state", "statement": "For a fixed system, costs and constraints of any kind, the total cost at the computed control is a convex function of the initial state, and the initial states from which solve() succeeds form a convex set (exact, complete solver, non-negative weights).", "quantifier": "all systems, costs, constraints, initial states, t in [0,1], histories of calls, exact solvers", "why_tests_cant": "convexity ranges over all triples of initial states", "anchors": ["src/LMPC.cpp:LMPC::solve", "src/PreviewSystem.cpp:PreviewSystem::xInit", "src/LMPC.cpp:LMPC::makeQPForm"]}
{"id": "C57", "title": "Controllers do not disturb each other through a shared preview system", "statement": "Several controllers may use the same preview system. As long as no constraint and no cost is given to two of them, every call on one controller - and in particular the outcome, the problem and the control of its next solve() - is what it would be if the other controllers were not there, whatever calls are made on them, in any order.", "quantifier": "all numbers of controllers, all interleavings of calls on them and on shared objects, all solvers", "why_tests_cant": "ranges over all interleavings of calls; tests use one controller", "anchors": ["include/LMPC.h:LMPC", "src/LMPC.cpp:LMPC::solve", "src/LMPC.cpp:LMPC::updateSystem", "src/LMPC.cpp:LMPC::checkDeleteCostsAndConstraints"]}
{"id": "C58", "title": "Rounding errors of the prediction stay within the standard bound", "statement": "In double precision (or any arithmetic whose products and additions have a relative error of at most u, with any order of summation and with or without fused multiply-add), after any history of calls on a preview system, updateSystem() and the prediction Phi x + Psi U + xi give states that differ from x_{k+1} = A x_k + B u_k + d by at most ((1+u)^(N(n+m+1)) - 1) times the state of the system with absolute values; the first state and the absence of influence of later controls are exact in every arithmetic.", "quantifier": "all systems, horizons, initial states, controls, histories of calls, orders of summation, roundings within u (no overflow or underflow)", "why_tests_cant": "tests compare a few trajectories up to an arbitrary tolerance; the bound quantifies over all data and all evaluation orders", "anchors": ["src/PreviewSystem.cpp:PreviewSystem::updateSystem", "src/LMPC.cpp:LMPC::trajectory"]}
{"id": "C59", "title": "Rounding errors of the constraint rows stay within the standard bound", "statement": "In such an arithmetic, each row computed by TrajectoryConstraint, MixedConstraint and TrajectoryBoundConstraint, whether updated once or many times, differs from the row it stands for by at most ((1+u)^(N(n+1)+p+1) - 1) times the size of its terms (p: number of columns of E used by the row, 1 for a bound), for every control and, with a free initial state, for every initial state; infinite right-hand sides stay infinite. Hence a control that meets the computed rows up to a tolerance meets the constraints up to the tolerance plus that bound. The constraints on the control alone are not rounded at all.", "quantifier": "all constraints, systems, histories of updates, controls, initial states, orders of summation, roundings within u (no overflow or underflow)", "why_tests_cant": "ranges over all data and all roundings; tests only see a few values", "anchors": ["src/constraints.cpp:TrajectoryConstraint::update", "src/constraints.cpp:MixedConstraint::update", "src/constraints.cpp:TrajectoryBoundConstraint::update", "src/constraints.cpp:ControlConstraint::update", "src/constraints.cpp:ControlBoundConstraint::update"]}
{"id": "C60", "title": "The rest of the plan is the plan of the rest", "statement": "Follow a computed control for K steps, then solve from the state trajectory() gives after K steps, with the number of steps reduced by K, the same system, the same constraints (in any order, through any objects) and the same costs: solve() succeeds again (complete solver), and control() and trajectory() are exactly the remaining parts of the first ones. No condition on the data but that the constraints and costs are accepted by both solves.", "quantifier": "all systems, horizons, K >= 1, constraints, costs with non-negative weights, pairs of histories of calls, exact solvers", "why_tests_cant": "the principle of optimality relates two programs of arbitrary sizes; tests never compare two horizons", "anchors": ["src/LMPC.cpp:LMPC::solve", "src/LMPC.cpp:LMPC::control", "src/LMPC.cpp:LMPC::trajectory", "src/constraints.cpp:TrajectoryConstraint::update", "src/costFunctions.cpp:TrajectoryCost::update", "src/costFunctions.cpp:TargetCost::update"]}
{"id": "C61", "title": "Rounding errors of the costs and of the objective stay within the standard bound", "statement": "In an arithmetic whose products and additions have a relative error of at most u, with any order of summation and with or without fused multiply-add (double precision: u = 2^-53), the Q(), c() - and Q(), E()'x + f() for any x - of each of the four cost classes, after any history of updates and weight changes (per-step trajectory and mixed costs: the first update), give for every control U the documented cost up to a constant and up to ((1+u)^k - 1) times the size of its terms (absolute values everywhere), with k = 2(N(n+1) + cols M) + steps (rows + 1) + 5 roundings. The objective handed to the solver is the sum of the documented costs and of the 1e-6 regularization up to the same error with two more roundings for each cost; so a control that a solver finds optimal up to tol for the computed objective is optimal for the documented one up to tol and these errors.", "quantifier": "all costs, systems, histories of updates, weights, controls, initial states, lists of costs, orders of summation, roundings within u (no overflow or underflow)", "why_tests_cant": "ranges over all data and all roundings; tests compare a few solutions up to an arbitrary tolerance", "anchors": ["src/costFunctions.cpp:TrajectoryCost::update", "src/costFunctions.cpp:TargetCost::update", "src/costFunctions.cpp:ControlCost::update", "src/costFunctions.cpp:MixedCost::update", "src/LMPC.cpp:LMPC::makeQPForm", "src/LMPC.cpp:LMPC::updateSystem"]}
{"id": "C62", "title": "Moving a controller", "statement": "After LMPC b(std::move(a)) or b = std::move(a) (same class), b goes on exactly as a would have without the move: every later call, on any object or controller, returns the same value or throws the same exception, and control(), trajectory(), the problem and all objects are the same; no constraint or cost loses an owner. The names of the controllers do not matter. The controller moved from holds nothing, its solve() is undefined until it gets a solver and a preview system again, and from then on it answers as a controller newly built in its place (InitialStateLMPC: also its cost and bounds must be given again); only nrEqConstr/nrIneqConstr, timers and last results may be stale until its next successful solve.", "quantifier": "all programs with any number of controllers, any history before and after the move, both kinds of move, all solvers", "why_tests_cant": "equality of behaviours after every history before and after the move cannot be tested exhaustively", "anchors": ["include/LMPC.h:LMPC::LMPC(LMPC&&)", "include/LMPC.h:LMPC::operator=", "src/LMPC.cpp:LMPC::useSolver", "src/LMPC.cpp:LMPC::solve"]}
{"id": "C63", "title": "What every solve minimises, whatever was solved before", "statement": "With an exact solver, every successful solve() of LMPC publishes the only admissible control that minimises the 1e-6 regularization plus, for each registered cost: its documented value with the current system and weights, for a cost that is not per-step; for a per-step TrajectoryCost or MixedCost, the sum of its documented values over every solve since it was last added (successful or not, once per registration), each with the system and weights of that solve but all from the current initial state - and, for a MixedCost only, the linear parts in the control left by each earlier update. Solved k times in a row with nothing changed, a per-step trajectory cost counts k times and a per-step mixed cost k times plus k(k-1)/2 times its linear part; a cost added since the last solve counts once. InitialStateLMPC: the same from the published initial state, without the leftover linear parts.", "quantifier": "all systems, histories of calls (any number of earlier solves, weight and model changes, failed solves), costs, constraints and exact solvers, both controllers", "why_tests_cant": "depends on the whole history of solves; the tests never solve twice with a per-step cost", "anchors": ["src/costFunctions.cpp:TrajectoryCost::update", "src/costFunctions.cpp:MixedCost::update", "src/LMPC.cpp:LMPC::solve", "src/LMPC.cpp:LMPC::updateSystem", "src/InitialStateLMPC.cpp:InitialStateLMPC::makeQPForm"]}
{"id": "C64", "title": "The receding horizon loop", "statement": "Run the usual loop any number of turns: solve(), apply the first control, give the state trajectory() predicts for the next step to xInit(), solve() again, with an exact solver. The states visited are exactly those of the system under the controls applied, and at each visited state every registered constraint given for one step holds (trajectory bounds: what copra imposes, see C10). If one registered constraint asks that the plan end at an equilibrium that satisfies the others, then after the first turn no solve() of the loop fails (complete solver), whatever costs are registered and however they accumulate.", "quantifier": "all systems, horizons, constraints, costs with non-negative weights, histories before the loop, numbers of turns, exact solvers", "why_tests_cant": "closed-loop behaviour over any number of turns and recursive feasibility quantify over all systems and all trajectories", "anchors": ["src/LMPC.cpp:LMPC::solve", "src/LMPC.cpp:LMPC::control", "src/LMPC.cpp:LMPC::trajectory", "src/PreviewSystem.cpp:PreviewSystem::xInit", "src/constraints.cpp:TrajectoryConstraint::update"]}
{"id": "C65", "title": "The automatic deletion announces what it drops", "statement": "In a debug build solve() prints on the error stream one warning per entry the automatic deletion drops - constraints first, then costs, each in the order they were added, with the name of the object - and nothing else: no warning means that the constraints and costs registered before and after solve() are the same. In a release build it prints nothing.", "quantifier": "all histories of calls, all owners, all constraints and costs, both builds, both controllers, all solvers", "why_tests_cant": "depends on the owners of every object in every history; the tests look at no warning", "anchors": ["src/LMPC.cpp:LMPC::checkDeleteCostsAndConstraints", "include/debugUtils.h:CONSTRAINT_DELETION_WARN"]}
{"id": "C66", "title": "What the solvers report", "statement": "fail() is the status of the library's last run and iter() its number of iterations. inform() prints the success text exactly when the status is 0, a different text for each documented status, and never nothing. Print level 0 silences the library and any other level does not.", "quantifier": "all solvers, statuses, iteration counts, print levels", "why_tests_cant": "ranges over all statuses, most of which no test provokes", "anchors": ["src/QLDSolver.cpp:QLDSolver::SI_inform", "src/QuadProgSolver.cpp:QuadProgDenseSolver::SI_inform", "src/LSSOLSolver.cpp:LSSOLSolver::SI_inform", "src/OSQPSolver.cpp:OSQPSolver::SI_inform", "src/SolverInterface.cpp:SolverInterface::SI_iter"]}
{"id": "C67", "title": "What the receding horizon loop spends", "statement": "In the loop of C64 with a terminal constraint at an equilibrium, and costs that are sums over the steps and do not accumulate (per-step ControlCost, TargetCost, full-size TrajectoryCost with the same block at each step): from one turn to the next the cost of the computed plan goes down by at least the cost of the step applied, up to the cost of one step at the equilibrium. So the steps made in any number of turns cost in total no more than the first plan plus as many steps at the equilibrium; if a step there is free, the whole loop costs no more than its first plan, and the energy of all controls applied is bounded.", "quantifier": "all systems, horizons, constraints, such costs, equilibria, histories before the loop, numbers of turns, exact solvers", "why_tests_cant": "a decrease at every turn of every closed loop is the stability argument of MPC; tests run a few turns of one system", "anchors": ["src/LMPC.cpp:LMPC::solve", "src/LMPC.cpp:LMPC::control", "src/PreviewSystem.cpp:PreviewSystem::xInit", "src/costFunctions.cpp:ControlCost::update", "src/costFunctions.cpp:TargetCost::update", "src/costFunctions.cpp:TrajectoryCost::update"]}
{"id": "C68", "title": "InitialStateLMPC answers like LMPC from the state it picks", "statement": "When an InitialStateLMPC succeeds, an LMPC with the same model, constraints and costs started at initialState() succeeds and returns the same control() and trajectory(). Conversely, when an LMPC succeeds from some state within the bounds of the initial state, InitialStateLMPC succeeds.", "quantifier": "all pairs of histories of calls, systems, constraints, costs, orders of addition, bounds and costs of the initial state, exact solvers", "why_tests_cant": "relates two controllers over every problem; no test compares them", "anchors": ["src/InitialStateLMPC.cpp:InitialStateLMPC::makeQPForm", "src/InitialStateLMPC.cpp:InitialStateLMPC::updateResults", "src/LMPC.cpp:LMPC::solve"]}
{"id": "C69", "title": "What the choice of the initial state minimizes", "statement": "The pair (initialState(), control()) minimizes, among the admissible pairs, the cost of the initial state 1/2 x'Rx + r'x, plus what the control costs above the cheapest unconstrained control from that state, plus a term that vanishes when bias and targets are 0. The registered costs themselves do not influence the choice of the initial state when the cheapest controls are admissible: then only 1/2 x'Rx + r'x counts, and with the default R = 0, r = 0 all such states are equally good.", "quantifier": "all histories of calls, systems, constraints, costs with nonnegative weights, R, r, bounds, exact solvers", "why_tests_cant": "an optimization statement over all admissible pairs; tests check one solution", "anchors": ["src/InitialStateLMPC.cpp:InitialStateLMPC::makeQPForm", "src/InitialStateLMPC.cpp:InitialStateLMPC::resetInitialStateCost"]}
{"id": "C70", "title": "Constraints and costs shared by several controllers", "statement": "In a program with several controllers, a solve of one changes no member of another and drops no constraint or cost that the user still points to or that another controller has registered. What only this controller owns (and has registered once) is dropped. So an object registered in two controllers stays in both through any number of solves, even when the user has no pointer left.", "quantifier": "all numbers of controllers, histories of calls on them and on the shared objects, owners, orders of solves, solvers and outcomes", "why_tests_cant": "the condition is a count over all owners at each point of each history; tests use one controller at a time", "anchors": ["src/LMPC.cpp:LMPC::checkDeleteCostsAndConstraints", "src/LMPC.cpp:LMPC::solve", "src/LMPC.cpp:LMPC::addConstraint", "src/LMPC.cpp:LMPC::addCost"]}
{"id": "C71", "title": "A controller computing in floating point answers nearly what was asked", "statement": "At the end of any documented history of LMPC computed with rounded arithmetic (relative error u of each operation, any order of summation), no call is undefined behaviour, and a successful solve with a solver of tolerance tol answers a control that meets every constraint the user gave up to tol and the rounding errors of its row, whose trajectory() is the exact one up to rounding errors, and whose total cost (with the regularization) is at most that of any control meeting the constraints with a margin of their rounding errors, plus tol and the rounding errors of the objective. The errors are bounded by explicit numbers of roundings of terms of explicit size.", "quantifier": "all accurate arithmetics (IEEE double with or without FMA among them), orders of summation, histories of calls, systems, horizons, constraints, costs, solvers of any tolerance", "why_tests_cant": "an error bound over every history, system and order of operations; tests compare one double result with a loose tolerance", "anchors": ["src/LMPC.cpp:LMPC::solve", "src/LMPC.cpp:LMPC::updateSystem", "src/LMPC.cpp:LMPC::makeQPForm", "src/PreviewSystem.cpp:PreviewSystem::updateSystem", "src/constraints.cpp:TrajectoryConstraint::update", "src/costFunctions.cpp:TrajectoryCost::update"]}
{"id": "C72", "title": "A controller computing in floating point that picks its initial state", "statement": "At the end of any documented history of InitialStateLMPC computed with rounded arithmetic, a successful solve with a solver of tolerance tol answers an initialState() within the bounds given for it up to tol, a control() that from there meets every constraint the user gave up to tol and the rounding errors of its row, and a trajectory() that is the system's from initialState() under control() up to rounding errors. When initialState() is exactly within its bounds, the total cost (with the regularization) from there is at most that of any control meeting the constraints from there with a margin of their rounding errors, plus tol and the rounding errors of the objective.", "quantifier": "all accurate arithmetics (IEEE double with or without FMA among them), orders of summation, histories of calls, systems, horizons, constraints, costs, bounds and costs of the initial state, numerical inverses, solvers of any tolerance", "why_tests_cant": "an error bound over every history, system and order of operations; tests compare one double result with a loose tolerance", "anchors": ["src/InitialStateLMPC.cpp:InitialStateLMPC::makeQPForm", "src/InitialStateLMPC.cpp:InitialStateLMPC::updateResults", "src/InitialStateLMPC.cpp:InitialStateLMPC::initialState", "src/LMPC.cpp:LMPC::solve", "src/PreviewSystem.cpp:PreviewSystem::updateSystem", "src/constraints.cpp:TrajectoryConstraint::update", "src/costFunctions.cpp:TrajectoryCost::update"]}
{"id": "C73", "title": "The control computed in floating point is close to the best one", "statement": "With nonnegative weights, the control that LMPC computes with rounded arithmetic is close to the best control: the regularization 1e-6 times the square of their distance is at most 4 times the tolerance of the solver plus 4 times the rounding errors of the two objectives. With an exact solver and constraints on the controls alone, the computed control satisfies the constraints exactly, the best control is the one the user asked for, and the controls of the same calls computed with and without rounding errors are that close.", "quantifier": "all accurate arithmetics, orders of summation, histories of calls, systems, horizons, constraints, costs with nonnegative weights, solvers, best controls of any set closed under middles that contains the computed one", "why_tests_cant": "a distance bound over every history, system and order of operations; tests compare one double result with a loose tolerance", "anchors": ["src/LMPC.cpp:LMPC::solve", "src/LMPC.cpp:LMPC::makeQPForm", "src/LMPC.cpp:LMPC::updateSystem", "src/costFunctions.cpp:TrajectoryCost::update", "src/constraints.cpp:ControlConstraint::update"]}
{"id": "C74", "title": "Rounding errors change numbers, nothing else", "statement": "The same calls made in floating point and in exact arithmetic give programs that differ in computed numbers only: the same exceptions at the same calls, the same lists of constraints and costs, sizes, counters, use counts, systems and data. Whether a history follows the documented protocol does not depend on rounding errors. So one history, checked once and without rounding errors, gives close controls in both arithmetics.", "quantifier": "all arithmetics, regularizations, histories of calls; for the protocol: all accurate arithmetics, sizes, horizons", "why_tests_cant": "two programs compared after every history and every arithmetic; tests run one binary with one arithmetic", "anchors": ["src/LMPC.cpp:LMPC::solve", "src/LMPC.cpp:LMPC::addConstraint", "src/LMPC.cpp:LMPC::checkDeleteCostsAndConstraints", "src/PreviewSystem.cpp:PreviewSystem::updateSystem", "src/constraints.cpp:TrajectoryConstraint::update", "src/costFunctions.cpp:TrajectoryCost::update"]}
{"id": "C75", "title": "InitialStateLMPC in floating point: the control is close to the best one from the chosen initial state", "statement": "With nonnegative weights, the control that InitialStateLMPC computes with rounded arithmetic is close to the best control from the initial state it reports: the regularization 1e-6 times the square of their distance is at most 4 times the tolerance of the solver plus 4 times the rounding errors of the two objectives. With an exact solver and constraints on the controls alone, the reported initial state is within its bounds, the computed control satisfies the constraints exactly, and the best control is the one the user asked for.", "quantifier": "all accurate arithmetics, histories of calls, systems, horizons, bounds and costs of the initial state, constraints, costs with nonnegative weights, solvers", "why_tests_cant": "a distance bound over every history, system and order of operations; no test compares InitialStateLMPC with a best control", "anchors": ["src/InitialStateLMPC.cpp:InitialStateLMPC::makeQPForm", "src/InitialStateLMPC.cpp:InitialStateLMPC::updateResults", "src/InitialStateLMPC.cpp:InitialStateLMPC::initialState", "src/LMPC.cpp:LMPC::solve", "src/costFunctions.cpp:TrajectoryCost::update"]}
