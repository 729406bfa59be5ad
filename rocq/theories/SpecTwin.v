(** SpecTwin.v -- C74: two programs that differ in computed numbers only. *)
From Verif Require Import Base Eigen Preview AutoSpan Constraints Costs Controller.

(** two preview systems: everything but Phi, Psi, xi *)
Definition twin_systems (s t : psys) : Prop :=
  isUpdated s = isUpdated t /\ nrUStep s = nrUStep t /\ nrXStep s = nrXStep t /\ xDim s = xDim t /\ uDim s = uDim t /\
  fullXDim s = fullXDim t /\ fullUDim s = fullUDim t /\ x0 s = x0 t /\ psA s = psA t /\ psB s = psB t /\ psd s = psd t.
(** two constraints: everything but the rows A, b, Y, z; everything for a constraint on the controls *)
Definition twin_cons (c d : constr) : Prop :=
  ck c = ck d /\ isIneq c = isIneq d /\ nrConstr c = nrConstr d /\ fullSizeEntry c = fullSizeEntry d /\ hasBeenInit c = hasBeenInit d /\
  cE c = cE d /\ cG c = cG d /\ cf c = cf d /\ clower c = clower d /\ cupper c = cupper d /\
  lowerLines c = lowerLines d /\ upperLines c = upperLines d /\ clb c = clb d /\ cub c = cub d /\
  (ck c = KCtrl -> c = d) /\ (ck c = KCtrlB -> c = d).
(** two costs: everything but Q, c, E, f *)
Definition twin_costs (c d : cost) : Prop :=
  kk c = kk d /\ kfull c = kfull d /\ kM c = kM d /\ kN c = kN d /\ kp c = kp d /\ kw c = kw d.
(** two controllers: everything but the problem, the results and the answer of the solver *)
Definition twin_controllers (a b : lmpc) : Prop :=
  m_is a = m_is b /\ m_ps a = m_ps b /\ nrEq a = nrEq b /\ nrIneq a = nrIneq b /\ spC a = spC b /\ spEq a = spEq b /\
  spIneq a = spIneq b /\ spB a = spB b /\ spCost a = spCost b /\ solveTime a = solveTime b /\ sabTime a = sabTime b.
(** two programs *)
Definition twins (w v : world) : Prop :=
  (forall p, twin_systems (wps w p) (wps v p)) /\
  ncon w = ncon v /\ (forall i, twin_cons (wcon w i) (wcon v i)) /\ (forall i, hcon w i = hcon v i) /\
  ncost w = ncost v /\ (forall i, twin_costs (wcost w i) (wcost v i)) /\ (forall i, hcost w i = hcost v i) /\
  twin_controllers (ctl w) (ctl v).
(** the outcomes of a call, where both are defined: the same exception or none, and programs that differ in computed numbers only *)
Definition same_outcome (r r' : outcome world) : Prop :=
  match r, r' with
  | Ok w, Ok v => twins w v
  | Throw e w, Throw e' v => e = e' /\ twins w v
  | UB, _ | _, UB => True
  | _, _ => False
  end.
