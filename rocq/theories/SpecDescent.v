(** SpecDescent.v -- C67: what the receding horizon loop spends. *)
From Verif Require Import Base Eigen Spec Preview SpecApi AutoSpan Constraints Costs SpecCosts Controller SpecController SpecEndToEnd.

(** the cost [d] with the weights [w] is the sum of [l] over the steps plus [f] of the last state *)
Definition additive (ps : psys) (d : cost_data) (w : vec Qc) (l : (nat -> Qc) -> (nat -> Qc) -> Qc) (f : (nat -> Qc) -> Qc) : Prop :=
  (forall x U, cost_value ps d w x U =
     (sum (nrUStep ps) (fun k => l (state_of ps x U k) (control_at (uDim ps) U k)) + f (state_of ps x U (nrUStep ps)))%Qc) /\
  (* l and f look at a state and a control, not beyond *)
  (forall x x' u u', (forall i, i < xDim ps -> x i = x' i) -> (forall i, i < uDim ps -> u i = u' i) -> l x u = l x' u') /\
  (forall x x', (forall i, i < xDim ps -> x i = x' i) -> f x = f x').

(** the documented cost of the plan [U] from [x]: the sum of the registered costs and the 1e-6 regularization *)
Definition plan_cost (ps : psys) (h : list op) (costs : list nat) (x U : nat -> Qc) : Qc :=
  (lsum costs (fun i => match cost_data_of h i with Some d => cost_value ps d (weights_of h i) x U | None => 0 end)
   + regularization (fullUDim ps) U)%Qc.
(** what one step at state [x] with control [u] costs *)
Definition step_cost (m : nat) (costs : list nat) (l : nat -> (nat -> Qc) -> (nat -> Qc) -> Qc) (x u : nat -> Qc) : Qc :=
  (lsum costs (fun i => l i x u) + regularization m u)%Qc.

(** a full-size matrix with [N + 1] blocks of [r] rows and [n] columns on the diagonal, zeros elsewhere *)
Definition block_diagonal (r n N : nat) (M : mx) : Prop :=
  rows M = r * (N + 1) /\ cols M = n * (N + 1) /\
  forall k l i j, k <= N -> l <= N -> k <> l -> i < r -> j < n -> at_ M (k * r + i) (l * n + j) = 0%Qc.
(** the same block, reference and weights at each step before the last *)
Definition same_blocks (r n N : nat) (M : mx) (p w : vec Qc) : Prop :=
  forall k i, k < N -> i < r ->
    (forall j, j < n -> at_ M (k * r + i) (k * n + j) = at_ M i j) /\ vget p (k * r + i) = vget p i /\ vget w (k * r + i) = vget w i.
