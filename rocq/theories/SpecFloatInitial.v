(** SpecFloatInitial.v -- C72: vocabulary for a controller that rounds and chooses its initial state: SpecFloatRun.v from a given state. *)
From Coq Require Import Qcabs.
From Verif Require Import Base Eigen Spec Preview SpecApi AutoSpan Constraints SpecConstraints Costs SpecCosts Controller
  SpecController SpecProtocol SpecEndToEnd Floats SpecFloats FloatCosts SpecFloatCosts FloatController SpecFloatRun.
Open Scope Qc_scope.

(** the rows of the constraints [l] built in the history [h], from the initial state [x] *)
Definition all_met_from (u s tol : Qc) (ps : psys) (h : list op) (l : list nat) (x U : nat -> Qc) : Prop :=
  forall i d, In i l -> con_data_of h i = Some d -> each_row ps d x U (met u s tol).
(** the size of the costs [l] built in [h], from the initial state [x] *)
Definition total_size_from (ps : psys) (h : list op) (l : list nat) (x U : nat -> Qc) : Qc :=
  lsum l (fun i => match cost_data_of h i with
     | Some d => cost_size ps d (weights_of h i) x U
     | None => 0 end).
(** the first [k] entries are within the bounds up to [tol] *)
Definition close_start (tol : Qc) (k : nat) (lb ub : nat -> ext) (x : nat -> Qc) : Prop :=
  forall i, (i < k)%nat -> meets tol true (- x i) (ext_opp (lb i)) /\ meets tol true (x i) (ub i).
Close Scope Qc_scope.
