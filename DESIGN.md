# Formal model of copra in Rocq (Coq 8.16.1)

Code base: jrl-umi3218/copra, C++ sources in /repo (src/, include/). The model is in
`rocq/theories/`; nothing from /repo is executed.

## 0. Trusted base

* **Coq's kernel** (8.16.1, `coqc` as installed) and its `vm_compute`, used in the concrete examples only.
* **Axioms**: none. `Print Assumptions` answers "Closed under the global context" for every theorem named in
  `MANIFEST.json` (the commands are at the end of each `Properties_*.v`). No axiom, `Variable` outside a section,
  `Admitted`, functor or module type is used. A checker that lists every axiom *loaded* with the files, used or not,
  finds the seven constants of `Coq.ssr.ssrunder` (`Under_rel`, `Under_relE`, `Under_rel_from_rel`, `under_rel_done`,
  `Over_rel`, `over_rel`, `over_rel_done`), opaque module fields of the standard library that come with `ssreflect` through
  the libraries required; no theorem here depends on them.
* **The transcription**: that each definition of the model files (first table below) says what the cited lines of /repo
  do. Every such definition carries a comment with file and lines. The modelling decisions below are part of this.
* **The specification files** `Spec*.v`: the reader must agree that they say what the English properties say. They do not
  use the model's update functions (only its data types and, for histories, its operations).

## 1. What is modelled and how

| Part of /repo | Model file |
|---|---|
| Eigen operations used by copra (`block`, `segment`, `*`, `+`, `resize`, `setZero`, `row`, `asDiagonal`, ...) | `Base.v`, `Eigen.v` |
| `PreviewSystem` (src/PreviewSystem.cpp, include/PreviewSystem.h) | `Preview.v` |
| `AutoSpan` (src/AutoSpan.cpp) | `AutoSpan.v` |
| `TrajectoryConstraint`, `ControlConstraint`, `MixedConstraint`, `TrajectoryBoundConstraint`, `ControlBoundConstraint`: constructors, `autoSpan`, `initializeConstraint`, `update` | `Constraints.v` |
| `TrajectoryCost`, `TargetCost`, `ControlCost`, `MixedCost`: constructors, `weights`, `weight`, `autoSpan`, `initializeCost`, `update` | `Costs.v` |
| `LMPC`, `InitialStateLMPC`: constructors, `initializeController`, `addConstraint`, `removeConstraint`, `clearConstraints`, `addCost`, `removeCost`, `resetInitialState*`, `solve` (update, QP assembly, solver call, timers, automatic deletion), `control`, `trajectory`, `initialState`, `useSolver`, `selectQPSolver`; histories of calls on one controller (`op`, `step`, `run`) | `Controller.v` |
| several controllers in one program: the members of each, shared preview systems, constraints, costs, the other controllers as outside owners (`mop`, `mstep`, `mrun`; the call itself is that of `Controller.v`) | `Controllers.v` |
| LMPC in rounded arithmetic: the same calls and histories, with rounded updates, objective and trajectory (`f_step`, `f_run`, `f_solve`) | `FloatController.v` |
| moves of controllers (`LMPC(LMPC&&)`, `operator=(LMPC&&)`), null solvers (`vop`, `vstep`, `vrun`) | `Moves.v` |
| the same prediction, constraint and cost updates in rounded arithmetic (updateSystem, trajectory, update of each constraint and cost class, the sum of the costs in makeQPForm): each sum of products is one call of an arithmetic `F`; IEEE double precision with unbounded exponent as an instance | `Floats.v`, `FloatCosts.v`, `Binary64.v` |
| `QuadProgDenseSolver`, `LSSOLSolver`, `OSQPSolver`, `QLDSolver` adapters (`SI_problem`, `SI_solve`, settings), base-class defaults of `SolverInterface`, `solverFactory`, `uniqueSolver` | `Solvers.v` |
| error message construction (src/debugUtils.cpp, include/debugUtils.h), `name()` | `Messages.v` |

| Independent specification (what the theorems compare with) | |
|---|---|
| x_{k+1} = A x_k + B u_k + d, comparison of rows, quadratic objective, bounds, positive definiteness: finite sums only | `Spec.v`, `SpecApi.v` |
| documented meaning of each constraint / cost class, shapes accepted | `SpecConstraints.v`, `SpecCosts.v` |
| histories, honest environments, blocks of the QP | `SpecController.v` |
| the documented call protocol | `SpecProtocol.v` |
| "all registered constraints hold", "total cost of a control", stretched data, exact solvers | `SpecEndToEnd.v` |
| what a QP library is asked, complete solvers | `SpecSolvers.v` |
| a solve of a documented history, equivalent problems, change of coordinates | `SpecMeaning.v` |
| controllers that share no constraint and no cost; the program without the other controllers | `SpecSharing.v` |
| what remains of a plan; updates of a cost since it was added; the receding horizon loop | `SpecTail.v`, `SpecLedger.v`, `SpecLoop.v` |
| the size of the rounding errors of the costs | `SpecFloatCosts.v` |
| the protocol for a rounded run, constraints up to their rounding errors, solvers that answer up to a tolerance | `SpecFloatRun.v`, `SpecFloatInitial.v` |
| the distance of two controls, sets closed under middles, constraints on the controls alone | `SpecClose.v` |
| two programs that differ in computed numbers only | `SpecTwin.v` |
| relative errors, any order of summation, growth of errors, size of the terms | `SpecFloats.v` |
| reuse with another system, what a message must contain | `SpecReuse.v`, `SpecMessages.v` |

### Modelling decisions

* **Scalars** are exact rationals (`Qc`, canonical rationals, Leibniz equality, no axiom). Every finite
  double is one. Rounding is modelled for the prediction, the constraint rows, the costs and the objective (C58, C59, C61, `Floats.v`, `FloatCosts.v`) and for whole histories of LMPC and InitialStateLMPC (C71, C72, `FloatController.v`): every product
  and every addition has a relative error of at most u, in any order of summation, which may differ from place to place;
  fused multiply-add is a product without error. Overflow, underflow and NaN are not modelled.
  Right-hand sides (`f`, `lower`, `upper`, `b`, `z`, `beq`, `bineq`, `lb`, `ub`) are extended by +/- infinity.
* **Matrices** have run-time sizes, as Eigen's dynamic matrices. Each Eigen operation whose
  size precondition can fail returns `None` then. `None` is *undefined behaviour* (an Eigen assertion in debug
  builds, out-of-bounds memory access in release builds). Nothing is assumed away: theorems that say a call is
  defined prove that it is not `None`.
* **Exceptions** carry the state of the object at the throw: `Ok s | Throw e s | UB`.
* **Uninitialised memory** (after `resize`) is an arbitrary `junk` function given with each call; theorems hold for every junk.
* **int**: products/sums of dimensions stored in `int` are checked against 2^31-1; exceeding it is UB.
* **shared_ptr**: objects live in a heap indexed by ids; `use_count` = external owners + occurrences in the controller's vectors.
* **QP solver**: an oracle given with each `solve` call (any function from the problem to success flag and vector). Its
  contract (a reported success is a minimizer) is an explicit hypothesis of the optimality theorems only.
* **Matrix inverse** (`Q.inverse()`, InitialStateLMPC): an oracle, with the hypothesis that it inverts invertible matrices,
  in the theorems that need it.
* **Clock**: four readings given with each `solve` call.
* **Solver matrices**: the adapters copy Eigen blocks; the library behind (`eigen-quadprog`, LSSOL, OSQP, QLD) is an oracle.

Proof files: `PreviewProofs`, `AutoSpanProofs`, `ConstraintProofs`, `ConstraintMeaning`, `SpanMeaning`, `CostProofs`,
`CostMeaning` (loop invariants, then meaning); `Registry`, `Assembly`, `Results`, `Protocol` (invariants of histories);
`SpanData`, `EndToEnd*`, `Convex`, `ExactSolver` (composition); `Determined`, `StateExt`, `InitialState`, `Existence`,
`SolverProofs`. Theorems are in `Properties_*.v`, each with a concrete example that meets its hypotheses (`*_example*`,
decided by `vm_compute` on boolean checkers of `Checkers.v`).

### Not modelled

* rounding inside the QP solvers and in the matrix inverse of InitialStateLMPC (both are oracles), overflow, underflow, NaN; the numerical QP libraries themselves;
* the Gurobi wrapper (it does not compile: GUROBISolver.cpp defines the getter `SI_feasibilityTolerance() const`, which GUROBISolver.h does not declare);
* the Python bindings (they bind `LMPC::resetConstraints`, which does not exist, so they do not compile either);
* threads, memory allocation failure, assigning a controller to itself, slicing an InitialStateLMPC into an LMPC;
* the prefix of `what()` (file, line, function);
* direct user writes to the public fields of PreviewSystem that break its dimensions (changes to `x0`, `A`, `B`, `d` that
  keep them are in the histories), user-defined Constraint/CostFunction/SolverInterface subclasses.

### What the code does not do (refuted properties)

Each is a theorem with the suffix `_refuted` (a concrete history evaluated by the model), beside what does hold.

* `TrajectoryBoundConstraint`: the rows of a finite lower bound have the wrong sign, so x <= lower is imposed (C10, C36);
  after `autoSpan` its row sets are not recomputed (C25).
* per-step `TrajectoryCost` and `MixedCost` accumulate (`+=` without reset) at each solve (C19, C45).
* the bounds of a removed `ControlBoundConstraint` stay in the QP (C30); two of them write out of range (C34).
* `ControlConstraint`/`ControlBoundConstraint` cannot be added again after removal, to any controller (C14, C46).
* the full-size flag of an entry is sticky when the object is registered with another system (C46).
* `autoSpan` of the mixed classes and of `TrajectoryCost` can throw half-way (C26).
* an object registered twice is never dropped by the automatic deletion (C33); `removeConstraint` does not refresh the
  row counts (only visible through the next solve, which recomputes them).
* `InitialStateLMPC` built without a preview system cannot be used until both resets are called (C41); its default R is 0,
  not the documented 1e-6 I, so Q is singular (C39); a failed solve or a new solver changes `initialState()` (C40); the
  part of the costs that depends on x0 only is left out of its QP (C50).
* the tolerance getter of QLD and OSQP returns -1 whatever was set (C51).
* messages: `std::ostringstream(str) <<` overwrites the start of the string, so the first size is lost; sizes of the bias
  are reported as "state", column mismatches of TargetCost as rows, bounds mismatches as "1 cols"; MixedConstraint is
  named "Control ..." (C48).

## 2. Plan per property

* **C01** PreviewSystem::system accepts exactly the well-dimensioned systems and is all-or-nothing. Model `system`; case analysis on the guards; equality of the whole record on Throw.
* **C02** Phi, Psi, xi reproduce the dynamics. Loop invariant of `updateSystem` (block recurrences), then induction on k against the recursion in Spec.v.
* **C03** Causality of the preview. Corollary of the block form of Psi and of C02.
* **C04** Updating is cached, repeatable and re-doable after changing the model. State machine of preview-system operations; invariant preserved by every operation list; update re-establishes C02.
* **C05** AutoSpan::spanMatrix builds the block-diagonal repetition. Model `spanMatrix`; loop invariant; entrywise characterisation; exact UB condition.
* **C06** AutoSpan::spanVector repeats the vector. As C05.
* **C07** A trajectory constraint means E x_k <= f (or = f) at every previewed step. Model initialize+update; row-wise equality of A U - b with E x_k - f using C02; iff statement.
* **C08** A control constraint means G u_k <= f (or = f) at every step. As C07, block-diagonal loop invariant.
* **C09** A mixed constraint means E x_k + G u_k <= f (or = f) at every control step. As C07, needs shift invariance of Psi blocks (double loop invariant).
* **C10** A trajectory bound constraint keeps the trajectory between lower and upper. Expected to be false for finite lower bounds (rows of the lower part have the wrong sign): refutation witness + exact theorem of what the rows mean + partial theorem for upper bounds.
* **C11** A control bound constraint bounds every control step. Loop invariant.
* **C12** The extended rows [Y A], z describe the same constraint with x0 left free. Entrywise identities for Y, z, b.
* **C13** Constraint initialization rejects exactly the wrong shapes, without side effects on the controller. Case analysis; registry equality on Throw.
* **C14** Control and control-bound constraints can be initialized once only. Flag invariant over histories.
* **C15** Trajectory cost value. Quadratic-form expansion with finite sums.
* **C16** Target cost value. As C15.
* **C17** Control cost value. As C15 (block diagonal).
* **C18** Mixed cost value. As C15.
* **C19** Solving again does not change the problem. Expected false for per-step TrajectoryCost/MixedCost (`+=` without reset): exact k-th update law, refutation; proved for the other classes and for constraints.
* **C20** The x0-explicit cost form is consistent. Entrywise identities.
* **C21** weights() sets exactly the requested weights or throws and changes nothing. Model `weights`; loop invariant.
* **C22** Cost initialization rejects exactly the wrong shapes, without registering the cost. Case analysis.
* **C23** autoSpan turns per-step data into an equivalent full-horizon entry (constraints). C05/C06 composed with C07-C09.
* **C24** autoSpan turns per-step data into an equivalent full-horizon entry (costs). C05/C06 composed with C15-C18.
* **C25** autoSpan of trajectory bounds bounds every step. Expected false (line sets are not recomputed): refutation witness.
* **C26** autoSpan failure leaves the object unchanged. True for two-operand classes; expected false for MixedConstraint/MixedCost and TrajectoryCost: witness.
* **C27** Q is symmetric positive definite for non-negative weights. Sum of weighted squares.
* **C28** QP assembly: every registered cost and constraint appears exactly once, in order. Loop invariant over the lists; for all junk.
* **C29** Registry consistency: removeConstraint is safe after any history. Invariant over op histories.
* **C30** Removing a constraint or cost removes its effect. True for costs/equality/inequality; expected false for control bounds (lb/ub never reset): witness.
* **C31** clearConstraints forgets every constraint. Direct.
* **C32** Automatic deletion: a constraint or cost still owned by the user is never dropped. Analysis of the deletion loop with changing use counts.
* **C33** Automatic deletion: a constraint or cost nobody else owns is dropped by solve. True for objects registered once; expected false for objects registered twice: witness.
* **C34** Several control bound constraints can be combined. Expected false: second bound constraint writes out of range: UB theorem.
* **C35** A failed solve keeps the previous result; a successful one publishes a consistent pair. C02 + model of solve.
* **C36** End-to-end: solve returns the optimal constrained control. Composition.
* **C37** solve is defined under the documented protocol. Invariant over op histories.
* **C38** InitialStateLMPC pinned to x0 is LMPC. Algebra of the extended QP.
* **C39** InitialStateLMPC cost matrix is positive definite. Schur complement; default R refuted by witness.
* **C40** InitialStateLMPC results are consistent. Success case proved; 'until next successful solve' expected false (failed solve / new solver changes initialState).
* **C41** InitialStateLMPC can be built empty and initialized later. Expected false: UB theorem.
* **C42** QuadProg adapter solves the same problem. Row-wise.
* **C43** LSSOL and OSQP adapters solve the same problem. Row-wise.
* **C44** Solver factory is total and both factories agree. Finite sweep over configurations.
* **C45** Initial state updates take effect without rebuilding the system. Model of solve after xInit.
* **C46** Objects can be reused with another system. Expected false for the sticky full-size flag: witness; proved when the entry kind does not change.
* **C47** Timers. Arithmetic.
* **C48** Names and error messages identify the problem. String model of std::ostringstream initialised with a string (writes from the start); expected false: witness.
* **C49** InitialStateLMPC: control optimal from the published initial state. Feasible points of the extended QP above the published x (InitialState.v), strict convexity in U.
* **C50** InitialStateLMPC: joint optimality. Refuted by witness; what the QP minimizes proved instead.
* **C51** Solver settings. Dispatch table of the overrides; refuted for the tolerance of QLD and OSQP.
* **C52** solve succeeds exactly when the constraints can be satisfied. Existence of a minimum of a strictly convex QP over the rationals by elimination (`Existence.v`), composed with C27, C28, C39 (InitialStateLMPC), C42
* **C53** Only the meaning of what is registered matters. C36 (optimal and unique) on both sides; permutation of finite sums, pointwise equivalence of the documented meanings; x = T z by induction on the step (`Coordinates.v`).
* **C54** Adding constraints. C36 on both sides, C52 for success.
* **C55** The control is affine in the initial state. Equality constraints are closed under affine combinations, a minimizer away from the limits of the doubles minimizes over all controls, the exact second-order expansion of the cost gives uniqueness and affinity (`Meaning.v`).
* **C56** Convexity in the initial state. All constraints are closed under convex combinations, costs are convex; C36, C52..
* **C57** Controllers that share a preview system. Simulation between the program and the program without the other controllers, by induction on the history: a call on a controller reads and writes only its members, its preview system and its objects (`Sharing.v`). Sharing a per-step cost couples controllers: refuted by a counterexample.
* **C58** Rounding of the prediction. `near u k r x m`: r is x up to k roundings of terms of size m; closed under sums in any order and products (`FloatProofs.v`), carried through the loop invariant of updateSystem with the powers of A and of |A| (`FloatPreview.v`). Definedness of the model and exact structure for every arithmetic by the same invariant with a trivial relation. Non-vacuous: `Binary64.v` proves round-to-nearest with 53 bits accurate.
* **C59** Rounding of the constraint rows. The same relation carried through the update loops of each class (`FloatConstraints.v`), rows read as the documented constraint (`FloatRows.v`). Control constraints: the update does not compute.
* **C60** The rest of the plan. `Tail.v`: a state after K + k steps is the state after k steps from the K-th one; a per-step constraint is a
  statement on the first K steps and the same constraint on the rest, a cost the sum of both; data accepted with two horizons is per step.
  The beginning of the first control followed by the second control is admissible for the first problem and costs no more, so by uniqueness it is the first control.
* **C61** Rounding of the costs and of the objective. `FloatCostProofs.v`: the relation of C58 carried through the update of each class,
  between the computed coefficients, the exact ones (formulas of `CostProofs.v` on the exact prediction) and the same formulas on absolute
  values; `FloatCostRun.v`: histories, then the value of the quadratic form and the sum of the costs. Per-step costs at their first update (C19).
* **C62** Moving a controller. `Moves.v`: programs of `Controllers.v` with the two moves, member by member, and null solvers. Simulation under
  an exchange of names (`MoveProofs.v`; the number of owners of an object is a sum over the controllers, invariant under permutation); the
  controller moved from is compared with a new one up to what the next solve overwrites (`MoveReuse.v`).
* **C63** What every solve minimises. `SpecLedger.v`: the updates of a cost since it was added (weights and system of each solve),
  and the value they add up to. Invariant along histories (`Ledger.v`): the accumulated matrices are the sums over these updates;
  then their objective is the sum of documented values (plus, for mixed costs, the linear parts of earlier sums). `Properties_Ledger.v`:
  C36/C49 without their hypothesis on per-step costs, and the closed form for k solves in a row.
* **C64** The receding horizon loop. `SpecLoop.v`: the loop as an inductive relation between worlds. `Loop.v`: what a turn keeps
  (registered objects, their data, the system) and the shifted plan (drop the first control, append the equilibrium's), which meets
  the constraints of the next solve; then C63 for each turn and C52 for the success of the next one.
* **C65** The warnings of the automatic deletion. `Diagnostics.v`: the printing side of the loops of `checkDeleteCostsAndConstraints`; the
  log is the filter of the dropped entries (same induction as for C32), `build` keeps the names.
* **C66** What the solvers report: the switch statements of `inform()` as functions of the library's status. Refuted for iter() of QLD
  and unknown statuses of QuadProg.
* **C67** What the loop spends. `SpecDescent.v`: costs that are sums over the steps. `Descent.v`: the shifted plan of C64 costs the last
  plan minus its first step plus a step at the equilibrium; the next solve does no worse (C63). Then induction on the turns.
* **C68** InitialStateLMPC against LMPC. `SpecBridge.v`: record posed_free, as posed. `Properties_Bridge.v`: C49 says that the control is the
  unique optimum from the published state; that problem is the one LMPC poses from there (C36), whatever the order of addition (as C53).
  Success both ways by C52: the feasible points of one give feasible points of the other.
* **C69** What the choice of the initial state minimizes. `Choice.v`: completes the square in the objective of InitialStateLMPC (C39's
  decomposition): start cost + 1/2 |V - best(y)|^2_K + tilt(y) + constant, and the middle term is the gap of the registered costs.
* **C70** Owners. `SpecOwners.v`: pointers of the user (counted from the calls), other controllers. `Owners.v`: the invariant of Registry.v for
  all controllers at once, by induction on the program; a solve filters its lists as in C32, with the pointers of the other controllers counted.
* **C71** A controller that rounds, end to end. `FloatController.v` is Controller.v, both controllers, with rounded updates; the end-to-end theorem is for LMPC (C72: InitialStateLMPC). `FloatProtocol.v` carries the
  invariant of Protocol.v through its calls (sizes do not depend on the rounding), `FloatTrace.v` the data given by the user (as EndToEnd.v),
  `FloatMeaning.v` reads the rows computed in one update (C59) in terms of that data, `FloatValue.v` the objective (C61), `FloatSolve.v`
  assembles one solve. The answer of a solver of tolerance tol meets every row up to tol plus its rounding errors; a control that meets
  every row with that margin is feasible for the rounded problem, so its cost is not lower by more than tol plus the rounding errors
  of the objective. (An equality that depends on the state leaves a margin only if its rounding errors vanish: then only the
  near-feasibility part of the theorem says something.) `C71_no_rounding`: without rounding and tolerance the rows are the constraints of C36. `C71_times_and_verdict`: the timers and the verdict are those of C40.
* **C72** The same for InitialStateLMPC. `FloatInitial.v`: the stacked problem of C28/C34 with rounded blocks, read row by row as in C71 from the
  initial state of the answer; the objective is split (as in C49) into a part of the initial state, the same for all competitors from there,
  and the part of C71. The corner of the cost matrix is never looked at. `C72_no_rounding` as C71.
* **C73** The rounded control is close to the best one. `Close.v`: each cost row is a nonnegative form, so the total cost with the
  regularization is strongly convex along the middle of two controls (`value_gap` of C53 with the weights that reach the world);
  the middle of the computed and the best control costs no less than the best, and C71 bounds the excess of the computed one.
  `C73_close_to_best` is for any set closed under middles; the two others are for constraints on the controls alone, whose rows have
  no rounding errors. `C73_rounded_vs_exact` combines C71 and C36 on the two runs of one history.
* **C74** Rounding errors change numbers, nothing else. `Twin.v`: two programs are related when they are equal once the computed fields
  (Phi, Psi, xi; A, b, Y, z; Q, c, E, f; the problem, results and answer) are erased; every operation of the rounded and of the exact
  step preserves the relation and throws alike (`step_rel`), for any arithmetic. For an accurate one the conditions of the protocol
  read erased fields only, so they hold of the rounded run exactly when they hold of the exact one, and C37 / C71 give that both are
  defined. `C74_same_controls`, `C74_rounded_solve` and `C74_rounded_initial_solve` are C73, C71 and
  C72 with conditions on the exact run alone: in floating point solve() is then defined too.
* **C75** C73 for InitialStateLMPC: `value_close` from the initial state the controller chose, with C72 for the excess of the computed
  control over any other from there. The initial state itself is not compared with the exact one: its choice depends on the numerical
  inverse in the corner of the cost matrix.
