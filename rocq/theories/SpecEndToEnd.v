(** SpecEndToEnd.v -- vocabulary for the statements about whole histories: which data an object was built with, what
    the documentation says these data mean, what an exact solver is. *)
From Verif Require Import Base Eigen Spec Preview SpecApi AutoSpan Constraints SpecConstraints Costs SpecCosts Controller SpecController.

(** the data of the constraints and of the costs built in a history; the one built after [i] others is object [i] *)
Definition new_cons (h : list op) : list con_data :=
  flat_map (fun o => match o with ONewCon d => [d] | _ => [] end) h.
Definition new_costs (h : list op) : list cost_data :=
  flat_map (fun o => match o with ONewCost d => [d] | _ => [] end) h.
(** ** What autoSpan makes of the data (include/AutoSpan.h 16-38) *)
(** [q] copies of [M] on the diagonal, then [a] block columns of zeros *)
Definition diag_copies (q a : nat) (M : mx) : mx :=
  Mx (q * rows M) (cols M * (q + a))
     (fun i j => if Nat.eqb (i / rows M) (j / cols M) then at_ M (i mod rows M) (j mod cols M) else 0%Qc).
(** [v], repeated up to [n] entries *)
Definition copies {T} (n : nat) (v : vec T) : vec T := Vec n (fun i => vget v (i mod vsize v)).
(** stretched to [n] rows; [None] when this cannot be done *)
Definition stretch_m (n a : nat) (M : mx) : option mx :=
  if Nat.eqb (rows M) n then Some M
  else if Nat.eqb (n mod rows M) 0 then Some (diag_copies (n / rows M) a M) else None.
Definition stretch_v {T} (n : nat) (v : vec T) : option (vec T) :=
  if Nat.eqb (vsize v) n then Some v
  else if Nat.eqb (n mod vsize v) 0 then Some (copies n v) else None.
(** the shorter parts are stretched to the size of the longest; data that cannot be are left as they are, but for the
    mixed classes, whose first parts are stretched first (C26) *)
Definition spanned_con (d : con_data) : con_data :=
  match d with
  | DTraj E f ineq =>
      let n := Nat.max (rows E) (vsize f) in
      match stretch_m n 0 E, stretch_v n f with Some E', Some f' => DTraj E' f' ineq | _, _ => d end
  | DCtrl G f ineq =>
      let n := Nat.max (rows G) (vsize f) in
      match stretch_m n 0 G, stretch_v n f with Some G', Some f' => DCtrl G' f' ineq | _, _ => d end
  | DMixed E G f ineq =>
      let n := Nat.max (vsize f) (Nat.max (rows E) (rows G)) in
      match stretch_m n 1 E, stretch_m n 0 G, stretch_v n f with
      | Some E', Some G', Some f' => DMixed E' G' f' ineq
      | Some E', Some G', None => DMixed E' G' f ineq
      | Some E', None, _ => DMixed E' G f ineq
      | None, _, _ => d
      end
  | DTrajB lo up =>
      let n := Nat.max (vsize lo) (vsize up) in
      match stretch_v n lo, stretch_v n up with Some lo', Some up' => DTrajB lo' up' | _, _ => d end
  | DCtrlB lo up =>
      let n := Nat.max (vsize lo) (vsize up) in
      match stretch_v n lo, stretch_v n up with Some lo', Some up' => DCtrlB lo' up' | _, _ => d end
  end.
Definition spanned_cost (d : cost_data) : cost_data :=
  match d with
  | DTrajC M p =>
      let n := Nat.max (rows M) (vsize p) in
      match stretch_m n 0 M, stretch_v n p with Some M', Some p' => DTrajC M' p' | _, _ => d end
  | DTargetC M p => d
  | DCtrlC N p =>
      let n := Nat.max (rows N) (vsize p) in
      match stretch_m n 0 N, stretch_v n p with Some N', Some p' => DCtrlC N' p' | _, _ => d end
  | DMixedC M N p =>
      let n := Nat.max (rows M) (Nat.max (rows N) (vsize p)) in
      match stretch_m n 1 M, stretch_m n 0 N, stretch_v n p with
      | Some M', Some N', Some p' => DMixedC M' N' p'
      | Some M', Some N', None => DMixedC M' N' p
      | Some M', None, _ => DMixedC M' N p
      | None, _, _ => d
      end
  end.
(** the data of object [i] after the history [h]: those it was built with, stretched if autoSpan was called on it *)
Definition spans_con (i : nat) (o : op) : bool := match o with OSpanCon _ k => Nat.eqb k i | _ => false end.
Definition spans_cost (i : nat) (o : op) : bool := match o with OSpanCost _ k => Nat.eqb k i | _ => false end.
Definition con_data_of (h : list op) (i : nat) : option con_data :=
  match nth_error (new_cons h) i with
  | Some d => Some (if existsb (spans_con i) h then spanned_con d else d)
  | None => None
  end.
Definition cost_data_of (h : list op) (i : nat) : option cost_data :=
  match nth_error (new_costs h) i with
  | Some d => Some (if existsb (spans_cost i) h then spanned_cost d else d)
  | None => None
  end.
(** the same data, whatever is stored out of range *)
Definition con_alike (d d' : con_data) : Prop :=
  match d, d' with
  | DTraj E f q, DTraj E' f' q' => meq E E' /\ veq f f' /\ q = q'
  | DCtrl G f q, DCtrl G' f' q' => meq G G' /\ veq f f' /\ q = q'
  | DMixed E G f q, DMixed E' G' f' q' => meq E E' /\ meq G G' /\ veq f f' /\ q = q'
  | DTrajB lo up, DTrajB lo' up' => veq lo lo' /\ veq up up'
  | DCtrlB lo up, DCtrlB lo' up' => veq lo lo' /\ veq up up'
  | _, _ => False
  end.
Definition cost_alike (d d' : cost_data) : Prop :=
  match d, d' with
  | DTrajC M p, DTrajC M' p' => meq M M' /\ veq p p'
  | DTargetC M p, DTargetC M' p' => meq M M' /\ veq p p'
  | DCtrlC N p, DCtrlC N' p' => meq N N' /\ veq p p'
  | DMixedC M N p, DMixedC M' N' p' => meq M M' /\ meq N N' /\ veq p p'
  | _, _ => False
  end.
(** trajectory bounds are built with two vectors of the same size (those stretched by autoSpan are not imposed as
    they should be: C25) *)
Definition even_bounds (h : list op) (i : nat) : Prop :=
  forall lower upper, nth_error (new_cons h) i = Some (DTrajB lower upper) -> vsize lower = vsize upper.

(** rows of the reference of a cost *)
Definition cost_rows (d : cost_data) : nat :=
  vsize (match d with DTrajC _ p | DTargetC _ p | DCtrlC _ p | DMixedC _ _ p => p end).
(** the weights of a cost built with data [d]: ones when built, then what weight() and weights() said last; a vector is
    repeated when its size divides the number of rows, refused otherwise (costFunctions.h 49-82); autoSpan repeats them *)
Definition weights_given (cur v : vec Qc) : vec Qc :=
  if Nat.eqb (vsize cur mod vsize v) 0 then Vec (vsize cur) (fun k => vget v (k mod vsize v)) else cur.
Definition weights_after_call (d : cost_data) (i : nat) (cur : vec Qc) (o : op) : vec Qc :=
  match o with
  | OWeight k x => if Nat.eqb k i then vconst (vsize cur) x else cur
  | OWeights k v => if Nat.eqb k i then weights_given cur v else cur
  | OSpanCost _ k => if Nat.eqb k i then copies (cost_rows (spanned_cost d)) cur else cur
  | _ => cur
  end.
Definition weights_after (d : cost_data) (h : list op) (i : nat) : vec Qc :=
  fold_left (weights_after_call d i) h (vconst (cost_rows d) 1%Qc).
(** the weights of object [i] *)
Definition weights_of (h : list op) (i : nat) : vec Qc :=
  match nth_error (new_costs h) i with Some d => weights_after d h i | None => vempty 0%Qc end.
(** no weight is ever negative *)
Definition nonneg_weights (h : list op) : Prop :=
  (forall i x, In (OWeight i x) h -> (0 <= x)%Qc) /\
  (forall i v, In (OWeights i v) h -> forall r, r < vsize v -> (0 <= vget v r)%Qc).
(** calls on an object are made through a pointer to it *)
Definition callable_op (w : world) (o : op) : Prop :=
  match o with
  | OWeights i _ | OWeight i _ | OAddCost _ i | OSpanCost _ i => 0 < hcost w i
  | OSpanCon _ i => 0 < hcon w i
  | _ => True
  end.
Fixpoint callable (w : world) (h : list op) : Prop :=
  match h with
  | [] => True
  | o :: t => callable_op w o /\ match step w o with Ok w' | Throw _ w' => callable w' t | UB => True end
  end.

(** documented meaning of a constraint for the initial state [x] and the control [U] *)
Definition means (ps : psys) (d : con_data) (x U : nat -> Qc) : Prop :=
  match d with
  | DTraj E f ineq => traj_means ps E f ineq x U
  | DCtrl G f ineq => ctrl_means ps G f ineq U
  | DMixed E G f ineq => mixed_means ps E G f ineq x U
  | DTrajB lower upper => traj_between ps lower upper x U
  | DCtrlB lower upper => ctrl_between ps lower upper U
  end.
(** what copra imposes: the same, but for trajectory bounds (C10) *)
Definition imposes (ps : psys) (d : con_data) (x U : nat -> Qc) : Prop :=
  match d with
  | DTrajB lower upper => traj_below_both ps lower upper x U
  | _ => means ps d x U
  end.
Definition no_lower_bound (d : con_data) : Prop :=
  match d with DTrajB lower _ => forall i, i < vsize lower -> vget lower i = NInf | _ => True end.
(** documented value of a cost with weights [w] *)
Definition cost_value (ps : psys) (d : cost_data) (w : vec Qc) (x U : nat -> Qc) : Qc :=
  match d with
  | DTrajC M p => traj_cost ps M p w x U
  | DTargetC M p => target_cost ps M p w x U
  | DCtrlC N p => ctrl_cost ps N p w U
  | DMixedC M N p => mixed_cost ps M N p w x U
  end.
(** per-step trajectory and mixed costs: those that add to what they computed before *)
Definition per_step (ps : psys) (d : cost_data) : bool :=
  match d with
  | DTrajC M p => Nat.eqb (cols M) (xDim ps)
  | DMixedC M N p => Nat.eqb (cols M) (xDim ps) && Nat.eqb (cols N) (uDim ps)
  | _ => false
  end.
(** the object has been registered since the last solve *)
Definition added_since_solve (h : list op) (i : nat) : Prop :=
  exists h1 j h2, h = h1 ++ OAddCost j i :: h2 /\ (forall e, ~ In (OSolve e) h2).

(** ** A quadratic program and its solver *)
Definition feasible (q : qp) (U : nat -> Qc) : Prop :=
  rows_hold false (rows (qAeq q)) (cols (qAeq q)) (at_ (qAeq q)) (vget (qbeq q)) U /\
  rows_hold true (rows (qAineq q)) (cols (qAineq q)) (at_ (qAineq q)) (vget (qbineq q)) U /\
  within_bounds (vsize (qlb q)) (vget (qlb q)) (vget (qub q)) U.
Definition qp_value (q : qp) (U : nat -> Qc) : Qc := objective (vsize (qc q)) (at_ (qQ q)) (vget (qc q)) U.
(** a problem of SolverInterface::SI_solve with [nv] variables, [ne] equalities and [ni] inequalities *)
Definition well_sized (nv ne ni : nat) (q : qp) : Prop :=
  rows (qQ q) = nv /\ cols (qQ q) = nv /\ vsize (qc q) = nv /\
  rows (qAeq q) = ne /\ cols (qAeq q) = nv /\ vsize (qbeq q) = ne /\
  rows (qAineq q) = ni /\ cols (qAineq q) = nv /\ vsize (qbineq q) = ni /\
  vsize (qlb q) = nv /\ vsize (qub q) = nv.
(** a solver that answers yes to a problem of the announced sizes answers a minimizer *)
Definition exact_solver (e : senv) : Prop :=
  forall k a b q r, s_qp e k a b q = (true, r) -> well_sized k a b q ->
    vsize r = k /\ feasible q (vget r) /\ forall V, feasible q V -> (qp_value q (vget r) <= qp_value q V)%Qc.

(** a solve left the bounds of a control bound constraint in the controller: they stay after it is removed, until the
    constraints are cleared or the controller initialized *)
Definition stale_op (w : world) (b : bool) (o : op) : bool :=
  match o with
  | OConstruct _ _ _ | OInitController _ _ | OClearCons => false
  | OSolve _ => match spB (ctl w) with [] => b | _ => true end
  | _ => b
  end.
Fixpoint stale (w : world) (b : bool) (h : list op) : bool :=
  match h with
  | [] => b
  | o :: t => match step w o with Ok w' | Throw _ w' => stale w' (stale_op w b o) t | UB => stale_op w b o end
  end.
(** 1e-6/2 ||U||^2, added by copra *)
Definition regularization (n : nat) (U : nat -> Qc) : Qc := (half * (q1em6 * sum n (fun i => U i * U i)))%Qc.
(** |U_i| <= DBL_MAX *)
Definition representable (n : nat) (U : nat -> Qc) : Prop := within_bounds n (fun _ => no_lower) (fun _ => no_upper) U.

(** what the constraints [l] built in the history [h] impose on the control [U], from the initial state of [ps] *)
Definition all_imposed (ps : psys) (h : list op) (l : list nat) (U : nat -> Qc) : Prop :=
  forall i d, In i l -> con_data_of h i = Some d -> imposes ps d (vget (x0 ps)) U.
(** ... and what the documentation says they do *)
Definition all_meant (ps : psys) (h : list op) (l : list nat) (U : nat -> Qc) : Prop :=
  forall i d, In i l -> con_data_of h i = Some d -> means ps d (vget (x0 ps)) U.
(** the sum of the documented values of the costs [l] built in [h], with the weights the user set *)
Definition total_cost (ps : psys) (h : list op) (l : list nat) (U : nat -> Qc) : Qc :=
  lsum l (fun i => match cost_data_of h i with
     | Some d => cost_value ps d (weights_of h i) (vget (x0 ps)) U
     | None => 0%Qc end).
(** the per-step trajectory and mixed costs of [l] are registered once each, after the last solve (C19) *)
Definition fresh_steps (ps : psys) (h : list op) (l : list nat) : Prop :=
  forall i d, In i l -> cost_data_of h i = Some d -> per_step ps d = true ->
    added_since_solve h i /\ cnt i l = 1.

(** the same problem: same sizes, same entries *)
Definition qp_same (q r : qp) : Prop :=
  meq (qQ q) (qQ r) /\ veq (qc q) (qc r) /\ meq (qAeq q) (qAeq r) /\ veq (qbeq q) (qbeq r) /\
  meq (qAineq q) (qAineq r) /\ veq (qbineq q) (qbineq r) /\ veq (qlb q) (qlb r) /\ veq (qub q) (qub r).
(** the cost object is a per-step trajectory or mixed cost *)
Definition accumulates (ps : psys) (c : cost) : bool :=
  match kk c with
  | TrajectoryCost => Nat.eqb (cols (kM c)) (xDim ps)
  | MixedCost => Nat.eqb (cols (kM c)) (xDim ps) && Nat.eqb (cols (kN c)) (uDim ps)
  | _ => false
  end.
(** the two systems have the same matrices and the same initial state *)
Definition same_system (p q : psys) : Prop := psA p = psA q /\ psB p = psB q /\ psd p = psd q /\ x0 p = x0 q.

(** ** Problems over an initial state and a control *)
(** the variable of InitialStateLMPC: the state (first [n] entries), then the control *)
Definition ctrl_part (n : nat) (X : nat -> Qc) : nat -> Qc := fun j => X (n + j).
Definition all_imposed_from (ps : psys) (h : list op) (l : list nat) (x U : nat -> Qc) : Prop :=
  forall i d, In i l -> con_data_of h i = Some d -> imposes ps d x U.
Definition total_cost_from (ps : psys) (h : list op) (l : list nat) (x U : nat -> Qc) : Qc :=
  lsum l (fun i => match cost_data_of h i with
     | Some d => cost_value ps d (weights_of h i) x U
     | None => 0%Qc end).

Definition same_con_data (a b : option con_data) : Prop :=
  match a, b with Some d, Some d' => con_alike d d' | _, _ => False end.
Definition same_cost_data (a b : option cost_data) : Prop :=
  match a, b with Some d, Some d' => cost_alike d d' | _, _ => False end.
(** the two controllers have the same constraints and costs, built with the same data and carrying the same weights
    ([h1], [h2]: their histories) *)
Definition same_registered (h1 : list op) (w1 : world) (h2 : list op) (w2 : world) : Prop :=
  spC (ctl w1) = spC (ctl w2) /\
  (forall i, In i (spC (ctl w1)) -> same_con_data (con_data_of h1 i) (con_data_of h2 i) /\ even_bounds h1 i /\ even_bounds h2 i) /\
  spCost (ctl w1) = spCost (ctl w2) /\
  (forall i, In i (spCost (ctl w1)) -> same_cost_data (cost_data_of h1 i) (cost_data_of h2 i) /\ veq (weights_of h1 i) (weights_of h2 i)).
(** the bounds of the initial state pin it to [x] *)
Definition pinned (s : ist) (n : nat) (x : nat -> Qc) : Prop :=
  forall i, i < n -> vget (isx0lb s) i = Fin (x i) /\ vget (isx0ub s) i = Fin (x i).
(** [P] is an inverse of the [k x k] matrix [Q] *)
Definition inverse_of (k : nat) (Q P : nat -> nat -> Qc) : Prop :=
  forall i j, i < k -> j < k -> sum k (fun l => Q i l * P l j)%Qc = if Nat.eqb i j then 1%Qc else 0%Qc.
(** the inverse taken by makeQPForm on the cost matrix of the controls, the lower right block of Q *)
Definition right_inverse (e : senv) (k : nat) (Q : nat -> nat -> Qc) : Prop :=
  forall M, rows M = k -> cols M = k -> (forall i j, i < k -> j < k -> at_ M i j = Q i j) -> inverse_of k Q (at_ (s_inv e M)).
Definition pos_semidef (n : nat) (Q : nat -> nat -> Qc) : Prop :=
  forall x, (0 <= sum n (fun i => x i * apply n Q x i))%Qc.
