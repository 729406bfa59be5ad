(** SpecFloatRun.v -- C71: vocabulary for the statements about whole histories of a controller that rounds. *)
From Coq Require Import Qcabs.
From Verif Require Import Base Eigen Spec Preview SpecApi AutoSpan Constraints SpecConstraints Costs SpecCosts Controller
  SpecController SpecProtocol SpecEndToEnd Floats SpecFloats FloatCosts SpecFloatCosts FloatController.
Open Scope Qc_scope.

(** ** The documented protocol (SpecProtocol.v), for a run that rounds *)
Section Run.
Variables (F : arith) (reg : Qc).
(** [P] holds of each call, at the world in which it is made *)
Fixpoint each_call (P : world -> op -> Prop) (w : world) (h : list op) : Prop :=
  match h with
  | nil => True
  | (o :: t)%list => P w o /\ match f_step F reg w o with Ok w' | Throw _ w' => each_call P w' t | UB => True end
  end.
Definition f_follows_protocol (n m N : nat) : world -> list op -> Prop := each_call (legal n m N).
Definition f_callable : world -> list op -> Prop := each_call callable_op.
Definition f_honest : world -> list op -> Prop := each_call honest_op.
(** a solve left the bounds of a control bound constraint (SpecEndToEnd.v) *)
Fixpoint f_stale (w : world) (b : bool) (h : list op) : bool :=
  match h with
  | nil => b
  | (o :: t)%list => match f_step F reg w o with Ok w' | Throw _ w' => f_stale w' (stale_op w b o) t | UB => stale_op w b o end
  end.
End Run.

(** ** What the constraints say, row by row: [P k ineq l e s] for each row  l <= e  (or l = e without [ineq]) computed with
    [k] roundings of terms of total size [s] *)
Definition ext_opp (e : ext) : ext := match e with Fin q => Fin (- q) | PInf => NInf | NInf => PInf end.
Definition row_pred := nat -> bool -> Qc -> ext -> Qc -> Prop.
Definition each_row (ps : psys) (d : con_data) (x U : nat -> Qc) (P : row_pred) : Prop :=
  let k0 := (nrUStep ps * (xDim ps + 1))%nat in
  match d with
  | DTraj E f ineq =>
      if Nat.eqb (cols E) (xDim ps)
      then forall k i, (k < nrXStep ps)%nat -> (i < rows E)%nat ->
             P (k0 + xDim ps + 1)%nat ineq (apply (xDim ps) (at_ E) (state_of ps x U k) i) (vget f i)
               (apply (xDim ps) (mabs (at_ E)) (size_of ps x U k) i)
      else forall i, (i < rows E)%nat ->
             P (k0 + fullXDim ps + 1)%nat ineq (apply (fullXDim ps) (at_ E) (stacked_state ps x U) i) (vget f i)
               (apply (fullXDim ps) (mabs (at_ E)) (stacked_size ps x U) i)
  | DMixed E G f ineq =>
      if Nat.eqb (cols E) (xDim ps) && Nat.eqb (cols G) (uDim ps)
      then forall k i, (k < nrUStep ps)%nat -> (i < rows E)%nat ->
             P (k0 + xDim ps + 1)%nat ineq
               (apply (xDim ps) (at_ E) (state_of ps x U k) i + apply (uDim ps) (at_ G) (control_at (uDim ps) U k) i) (vget f i)
               (apply (xDim ps) (mabs (at_ E)) (size_of ps x U k) i
                + apply (uDim ps) (mabs (at_ G)) (control_at (uDim ps) (vabs U) k) i)
      else forall i, (i < rows E)%nat ->
             P (k0 + fullXDim ps + 1)%nat ineq
               (apply (fullXDim ps) (at_ E) (stacked_state ps x U) i + apply (fullUDim ps) (at_ G) U i) (vget f i)
               (apply (fullXDim ps) (mabs (at_ E)) (stacked_size ps x U) i + apply (fullUDim ps) (mabs (at_ G)) (vabs U) i)
  | DTrajB lower upper =>                 (* as imposed: C10 *)
      forall k i, (k < nrXStep ps)%nat -> (i < xDim ps)%nat ->
        (vpart (xDim ps) lower k i <> NInf ->
           P (k0 + 2)%nat true (state_of ps x U k i) (vpart (xDim ps) lower k i) (size_of ps x U k i)) /\
        (vpart (xDim ps) upper k i <> PInf ->
           P (k0 + 2)%nat true (state_of ps x U k i) (vpart (xDim ps) upper k i) (size_of ps x U k i))
  | DCtrl G f ineq =>                     (* not rounded *)
      if Nat.eqb (cols G) (uDim ps)
      then forall k i, (k < nrUStep ps)%nat -> (i < rows G)%nat ->
             P 0%nat ineq (apply (uDim ps) (at_ G) (control_at (uDim ps) U k) i) (vget f i) 0
      else forall i, (i < rows G)%nat -> P 0%nat ineq (apply (fullUDim ps) (at_ G) U i) (vget f i) 0
  | DCtrlB lower upper =>
      if Nat.eqb (vsize lower) (uDim ps)
      then forall k i, (k < nrUStep ps)%nat -> (i < uDim ps)%nat ->
             P 0%nat true (- control_at (uDim ps) U k i) (ext_opp (vget lower i)) 0 /\
             P 0%nat true (control_at (uDim ps) U k i) (vget upper i) 0
      else forall i, (i < fullUDim ps)%nat ->
             P 0%nat true (- U i) (ext_opp (vget lower i)) 0 /\ P 0%nat true (U i) (vget upper i) 0
  end.

(** the row holds up to [tol] and up to [s] times its rounding errors: [s = 1]: nearly; [s = - 1]: with that margin *)
Definition met (u s tol : Qc) : row_pred := fun k ineq l e size => meets (tol + s * (growth u k * (size + ext_abs e))) ineq l e.
(** the rows of the constraints [l] built in the history [h] *)
Definition all_met (u s tol : Qc) (ps : psys) (h : list op) (l : list nat) (U : nat -> Qc) : Prop :=
  forall i d, In i l -> con_data_of h i = Some d -> each_row ps d (vget (x0 ps)) U (met u s tol).

(** ** The size of the costs [l] built in [h] (SpecFloatCosts.v), and the roundings of the objective *)
Definition cost_size (ps : psys) (d : cost_data) (w : vec Qc) (x U : nat -> Qc) : Qc :=
  match d with
  | DTrajC M p => traj_size ps M p w x U
  | DTargetC M p => target_size ps M p w x U
  | DCtrlC N p => ctrl_size ps N p w U
  | DMixedC M N p => mixed_size ps M N p w x U
  end.
Definition total_size (ps : psys) (h : list op) (l : list nat) (U : nat -> Qc) : Qc :=
  lsum l (fun i => match cost_data_of h i with
     | Some d => cost_size ps d (weights_of h i) (vget (x0 ps)) U
     | None => 0 end).
Definition data_roundings (ps : psys) (d : cost_data) : nat :=
  match d with
  | DTrajC M p => roundings ps (cols M) (if Nat.eqb (cols M) (xDim ps) then nrXStep ps else 1) (vsize p)
  | DTargetC M p => roundings ps (cols M) 1 (vsize p)
  | DCtrlC N p => roundings ps 0 1 (vsize p)
  | DMixedC M N p => roundings ps (cols M) (if Nat.eqb (cols M) (xDim ps) && Nat.eqb (cols N) (uDim ps) then nrUStep ps else 1) (vsize p)
  end.
Definition total_roundings (ps : psys) (h : list op) (l : list nat) : nat :=
  (fold_right (fun i m => Nat.max (match cost_data_of h i with Some d => data_roundings ps d | None => 1 end) m) 1 l + 2 * length l)%nat.

(** ** A solver that answers up to [tol] *)
Definition close_rows (tol : Qc) (ineq : bool) (A : mx) (b : vec ext) (U : nat -> Qc) : Prop :=
  forall i, (i < rows A)%nat -> meets tol ineq (apply (cols A) (at_ A) U i) (vget b i).
Definition close_bounds (tol : Qc) (lb ub : vec ext) (U : nat -> Qc) : Prop :=
  forall i, (i < vsize lb)%nat -> meets tol true (- U i) (ext_opp (vget lb i)) /\ meets tol true (U i) (vget ub i).
Definition close_feasible (tol : Qc) (q : qp) (U : nat -> Qc) : Prop :=
  close_rows tol false (qAeq q) (qbeq q) U /\ close_rows tol true (qAineq q) (qbineq q) U /\
  close_bounds tol (qlb q) (qub q) U.
(** on success: every row and bound holds up to [tol], and nothing feasible is better by more than [tol] *)
Definition close_solver (tol : Qc) (e : senv) : Prop :=
  forall k a b q r, s_qp e k a b q = (true, r) -> well_sized k a b q ->
    vsize r = k /\ close_feasible tol q (vget r) /\ forall V, feasible q V -> qp_value q (vget r) <= qp_value q V + tol.
Close Scope Qc_scope.
