(** SpecSolvers.v -- the problems the qp libraries solve, in their own form, and what is expected of a library.
    [feasible], [qp_value], [exact_solver] (SpecEndToEnd) are about the problem of SolverInterface.h 52-63. *)
From Verif Require Import Base Eigen Spec Preview AutoSpan Constraints Costs Controller SpecController SpecEndToEnd Solvers.

(** a point of a set where a function is least *)
Definition least (S : (nat -> Qc) -> Prop) (f : (nat -> Qc) -> Qc) (x : nat -> Qc) : Prop :=
  S x /\ forall y, S y -> (f x <= f y)%Qc.

(** QuadProg: min 1/2 x'Qx + c'x  with  Aeq x = beq,  A x <= b *)
Definition ineq_sized (nv ne ni : nat) (p : ineq_qp) : Prop :=
  rows (iQ p) = nv /\ cols (iQ p) = nv /\ vsize (ic p) = nv /\
  rows (iAeq p) = ne /\ cols (iAeq p) = nv /\ vsize (ibeq p) = ne /\
  rows (iA p) = ni /\ cols (iA p) = nv /\ vsize (ib p) = ni.
Definition ineq_feasible (p : ineq_qp) (x : nat -> Qc) : Prop :=
  rows_hold false (rows (iAeq p)) (cols (iAeq p)) (at_ (iAeq p)) (vget (ibeq p)) x /\
  rows_hold true (rows (iA p)) (cols (iA p)) (at_ (iA p)) (vget (ib p)) x.
Definition ineq_value (p : ineq_qp) (x : nat -> Qc) : Qc := objective (vsize (ic p)) (at_ (iQ p)) (vget (ic p)) x.
(** a library that answers yes answers a solution; one that answers yes to [p] when it has a solution *)
Definition ineq_exact (lib : ineq_lib) : Prop := forall nv ne ni p r,
  ineq_sized nv ne ni p -> lib nv ne ni p = (true, r) -> vsize r = nv /\ least (ineq_feasible p) (ineq_value p) (vget r).
Definition ineq_complete (lib : ineq_lib) (p : ineq_qp) : Prop := forall nv ne ni x,
  ineq_sized nv ne ni p -> least (ineq_feasible p) (ineq_value p) x -> fst (lib nv ne ni p) = true.

(** LSSOL, OSQP: min 1/2 x'Qx + c'x  with  bl <= A x <= bu,  XL <= x <= XU *)
Definition box_sized (nv nr : nat) (p : box_qp) : Prop :=
  rows (xQ p) = nv /\ cols (xQ p) = nv /\ vsize (xc p) = nv /\
  rows (xA p) = nr /\ cols (xA p) = nv /\ vsize (xbl p) = nr /\ vsize (xbu p) = nr /\
  vsize (xXL p) = nv /\ vsize (xXU p) = nv.
Definition box_feasible (p : box_qp) (x : nat -> Qc) : Prop :=
  within_bounds (rows (xA p)) (vget (xbl p)) (vget (xbu p)) (apply (cols (xA p)) (at_ (xA p)) x) /\
  within_bounds (vsize (xXL p)) (vget (xXL p)) (vget (xXU p)) x.
Definition box_value (p : box_qp) (x : nat -> Qc) : Qc := objective (vsize (xc p)) (at_ (xQ p)) (vget (xc p)) x.
Definition box_exact (lib : box_lib) : Prop := forall nv nr p r,
  box_sized nv nr p -> lib nv nr p = (true, r) -> vsize r = nv /\ least (box_feasible p) (box_value p) (vget r).
Definition box_complete (lib : box_lib) (p : box_qp) : Prop := forall nv nr x,
  box_sized nv nr p -> least (box_feasible p) (box_value p) x -> fst (lib nv nr p) = true.

(** QLD, Gurobi: the problem of SI_solve itself *)
Definition full_exact (lib : full_lib) : Prop := forall nv ne ni q r,
  well_sized nv ne ni q -> lib nv ne ni q = (true, r) -> vsize r = nv /\ least (feasible q) (qp_value q) (vget r).
Definition full_complete (lib : full_lib) (q : qp) : Prop := forall nv ne ni x,
  well_sized nv ne ni q -> least (feasible q) (qp_value q) x -> fst (lib nv ne ni q) = true.

(** A x >= -DBL_MAX for the inequality rows *)
Definition rows_representable (q : qp) (x : nat -> Qc) : Prop :=
  forall i, i < rows (qAineq q) -> (- DBL_MAX <= apply (cols (qAineq q)) (at_ (qAineq q)) x i)%Qc.
Definition rows_strictly_representable (q : qp) (x : nat -> Qc) : Prop :=
  forall i, i < rows (qAineq q) -> (- DBL_MAX < apply (cols (qAineq q)) (at_ (qAineq q)) x i)%Qc.

(** a solver that answers yes to the problem [q] when it has a solution *)
Definition complete_for (e : senv) (q : qp) : Prop := forall k a b x,
  well_sized k a b q -> least (feasible q) (qp_value q) x -> fst (s_qp e k a b q) = true.
