(** SpecProtocol.v -- the documented way of using one controller, as conditions on each call. *)
From Verif Require Import Base Eigen Spec Preview SpecApi AutoSpan Constraints Costs SpecConstraints Controller SpecController.

(** [n] states, [m] controls, [N] steps: all sizes computed from them are ints *)
Definition sizes_fit (n m N : nat) : Prop :=
  1 <= N /\ fits_int (N + 1) = true /\ fits_int n = true /\ fits_int m = true /\
  fits_int (n * (N + 1)) = true /\ fits_int (m * N) = true /\ fits_int (n + m * N) = true.

(** [system] has been called successfully on [p] *)
Definition is_set (w : world) (p : nat) : Prop := 1 <= nrUStep (wps w p).
(** the controller has been initialized *)
Definition has_system (w : world) : Prop := m_ps (ctl w) <> None.

(** data that AutoSpan can stretch: at least one row each *)
Definition con_nonempty (c : constr) : Prop :=
  match ck c with
  | KTraj => rows (cE c) <> 0 /\ vsize (cf c) <> 0
  | KCtrl => rows (cG c) <> 0 /\ vsize (cf c) <> 0
  | KMixed => rows (cE c) <> 0 /\ rows (cG c) <> 0 /\ vsize (cf c) <> 0
  | KTrajB | KCtrlB => vsize (clower c) <> 0 /\ vsize (cupper c) <> 0
  end.
Definition cost_nonempty (c : cost) : Prop :=
  match kk c with
  | TrajectoryCost => rows (kM c) <> 0 /\ vsize (kp c) <> 0
  | TargetCost => True
  | ControlCost => rows (kN c) <> 0 /\ vsize (kp c) <> 0
  | MixedCost => rows (kM c) <> 0 /\ rows (kN c) <> 0 /\ vsize (kp c) <> 0
  end.

(** One call of the protocol for a system of [n] states, [m] controls and [N] steps:
    - every accepted [system] has these dimensions (a rejected one is harmless);
    - xInit and the public fields A, B, d get values of the right sizes, after [system];
    - a preview system is given to a controller after [system]; constraints and costs are registered, removed and
      cleared, and solve is called, after the controller has its system;
    - the numbers of constraint rows fit in int; at most one control bound constraint is registered at a time;
    - autoSpan is called on objects with non-empty data, or already registered once; weights() gets a non-empty vector;
    - InitialStateLMPC has an initial-state cost and bounds of the size of the state when solve is called;
    - the inverse of a matrix has its size, and a solver reporting success returns one value per variable. *)
Definition legal (n m N : nat) (w : world) (o : op) : Prop :=
  match o with
  | OPs p (PSystem s c b x k) => well_dimensioned s c b x k -> cols s = n /\ cols c = m /\ k = Z.of_nat N
  | OPs p (PXInit x) => is_set w p /\ vsize x = n
  | OPs p (PSetModel A B d) => is_set w p /\ rows A = n /\ cols A = n /\ rows B = n /\ cols B = m /\ vsize d = n
  | OPs p PClearUpdated => True
  | OPs p PUpdate | OPs p PEnsureUpdated => is_set w p
  | OConstruct _ (CLMPCps p) _ | OConstruct _ (CISps p) _ | OInitController _ p => is_set w p
  | OAddCost _ _ | OClearCons => has_system w
  | OAddCon _ i => has_system w /\
      match constraintType (wcon w i), m_ps (ctl w) with
      | EqualityConstraint, Some p => fits_int (nrEq (ctl w) + row_count (wps w p) (wcon w i)) = true
      | InequalityConstraint, Some p => fits_int (nrIneq (ctl w) + row_count (wps w p) (wcon w i)) = true
      | BoundConstraint, _ => spB (ctl w) = []
      | _, None => True
      end
  | OSpanCon _ i => con_nonempty (wcon w i) \/ In i (spC (ctl w))
  | OSpanCost _ i => cost_nonempty (wcost w i) \/ In i (spCost (ctl w))
  | OWeights _ v => vsize v <> 0
  | OSolve e => has_system w /\
      (forall s, m_is (ctl w) = Some s ->
         rows (isR s) = n /\ cols (isR s) = n /\ vsize (isr s) = n /\ vsize (isx0lb s) = n /\ vsize (isx0ub s) = n) /\
      (forall M, rows M = cols M -> rows (s_inv e M) = rows M /\ cols (s_inv e M) = cols M) /\
      (forall k a b q r, s_qp e k a b q = (true, r) -> vsize r = k)
  | _ => True
  end.
Fixpoint follows_protocol (n m N : nat) (w : world) (h : list op) : Prop :=
  match h with
  | [] => True
  | o :: t => legal n m N w o /\ match step w o with Ok w' | Throw _ w' => follows_protocol n m N w' t | UB => True end
  end.
