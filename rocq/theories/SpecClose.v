(** SpecClose.v -- C73: how far two controls are from each other; constraints that do not depend on the state. *)
From Verif Require Import Base Eigen Spec Preview SpecApi AutoSpan Constraints SpecConstraints Costs SpecCosts Controller
  SpecController SpecProtocol SpecEndToEnd.
Open Scope Qc_scope.

(** the square of the Euclidean distance of two controls of [k] entries *)
Definition distance2 (k : nat) (U V : nat -> Qc) : Qc := sum k (fun i => (U i - V i) * (U i - V i)).
(** a set of controls that contains the middle of any two of them *)
Definition middles (C : (nat -> Qc) -> Prop) : Prop :=
  forall A B, C A -> C B -> C (fun i => half * (A i + B i)).
(** all constraints [l] built in [h] are on the controls alone *)
Definition on_controls (h : list op) (l : list nat) : Prop :=
  forall i d, In i l -> con_data_of h i = Some d -> match d with DCtrl _ _ _ | DCtrlB _ _ => True | _ => False end.
Close Scope Qc_scope.
