(** SpecReuse.v -- C46: using an object again, with another preview system. *)
From Verif Require Import Base Eigen Spec Preview SpecApi AutoSpan Constraints SpecConstraints Costs SpecCosts.

(** ** What may happen to a constraint between its construction and its next registration: it is registered with any
    controllers (initializeConstraint), takes part in solves (update), is spanned (autoSpan) *)
Inductive c_event := CRegister (j : junk) (ps : psys) | CSolve (ps : psys) | CAutoSpan (j : junk).
Definition c_happens (c : constr) (e : c_event) : outcome constr :=
  match e with
  | CRegister j ps => initializeConstraint j ps c
  | CSolve ps => of_opt (c_update ps c)
  | CAutoSpan j => c_autoSpan j c
  end.
(** exceptions are caught and the object used further *)
Fixpoint c_life (c : constr) (h : list c_event) : option constr :=
  match h with
  | [] => Some c
  | e :: t => match c_happens c e with Ok c' | Throw _ c' => c_life c' t | UB => None end
  end.
Definition never_autoSpanned (h : list c_event) : Prop := forall j, ~ In (CAutoSpan j) h.

(** a new constraint built from the data the object holds *)
Definition new_like (c : constr) : constr :=
  match ck c with
  | KTraj => mkTraj (cE c) (cf c) (isIneq c)
  | KCtrl => mkCtrl (cG c) (cf c) (isIneq c)
  | KMixed => mkMixed (cE c) (cG c) (cf c) (isIneq c)
  | KTrajB => mkTrajB (clower c) (cupper c)
  | KCtrlB => mkCtrlB (clower c) (cupper c)
  end.
(** the data have the size of one step of [ps] *)
Definition one_step (ps : psys) (c : constr) : Prop :=
  match ck c with
  | KTraj => cols (cE c) = xDim ps
  | KCtrl => cols (cG c) = uDim ps
  | KMixed => cols (cE c) = xDim ps /\ cols (cG c) = uDim ps
  | KTrajB => vsize (clower c) = xDim ps
  | KCtrlB => vsize (clower c) = uDim ps
  end.
(** at some point of its life the object was registered with a system for which its data span the horizon *)
Definition was_full_size (c0 : constr) (h : list c_event) : Prop :=
  exists h1 j ps h2 c1 c2, h = h1 ++ CRegister j ps :: h2 /\ c_life c0 h1 = Some c1 /\
    initializeConstraint j ps c1 = Ok c2 /\ ~ one_step ps c1.
(** what a controller reads from a constraint *)
Definition same_rows (c d : constr) : Prop :=
  constraintType c = constraintType d /\ nrConstr c = nrConstr d /\
  meq (cA c) (cA d) /\ veq (cb c) (cb d) /\ meq (cY c) (cY d) /\ veq (cz c) (cz d).

(** ** The same for a cost; the user may also set its weights *)
Inductive k_event := KRegister (j : junk) (ps : psys) | KSolve (ps : psys) | KAutoSpan (j : junk) | KWeights (w : vec Qc) | KWeight (x : Qc).
Definition k_happens (c : cost) (e : k_event) : outcome cost :=
  match e with
  | KRegister j ps => initializeCost j ps c
  | KSolve ps => of_opt (k_update ps c)
  | KAutoSpan j => k_autoSpan j c
  | KWeights w => k_weights c w
  | KWeight x => Ok (k_weight c x)
  end.
Fixpoint k_life (c : cost) (h : list k_event) : option cost :=
  match h with
  | [] => Some c
  | e :: t => match k_happens c e with Ok c' | Throw _ c' => k_life c' t | UB => None end
  end.
(** a new cost built from the data the object holds, with the weights set to those it holds *)
Definition new_cost_like (c : cost) : outcome cost :=
  k_weights match kk c with
            | TrajectoryCost => mkTrajC (kM c) (kp c)
            | TargetCost => mkTargetC (kM c) (kp c)
            | ControlCost => mkCtrlC (kN c) (kp c)
            | MixedCost => mkMixedC (kM c) (kN c) (kp c)
            end (kw c).
Definition one_step_cost (ps : psys) (c : cost) : Prop :=
  match kk c with
  | TrajectoryCost => cols (kM c) = xDim ps
  | TargetCost => True
  | ControlCost => cols (kN c) = uDim ps
  | MixedCost => cols (kM c) = xDim ps /\ cols (kN c) = uDim ps
  end.
Definition was_full_size_cost (c0 : cost) (h : list k_event) : Prop :=
  exists h1 j ps h2 c1 c2, h = h1 ++ KRegister j ps :: h2 /\ k_life c0 h1 = Some c1 /\
    initializeCost j ps c1 = Ok c2 /\ ~ one_step_cost ps c1.
(** what a controller reads from a cost *)
Definition same_quadratic (c d : cost) : Prop :=
  meq (kQ c) (kQ d) /\ veq (kc c) (kc d) /\ meq (kE c) (kE d) /\ veq (kf c) (kf d).
