(** SpecBridge.v -- C68: a solve of InitialStateLMPC that meets the conditions of C49. *)
From Verif Require Import Base Eigen Spec Preview SpecApi AutoSpan Constraints Costs SpecConstraints SpecCosts Controller SpecController
  SpecProtocol SpecEndToEnd.

(** as [posed] (SpecMeaning), for a controller that also chooses the initial state, with the options [s] *)
Record posed_free (n m N : nat) (h : list op) (w : world) (p : nat) (s : ist) (e : senv) (b : bool) (w' : world) : Prop := {
  pf_sizes : sizes_fit n m N;
  pf_protocol : follows_protocol n m N world0 h;
  pf_callable : callable world0 h;
  pf_honest : honest world0 h;
  pf_reached : reached h w;
  pf_ps : m_ps (ctl w) = Some p;
  pf_is : m_is (ctl w) = Some s;
  pf_even : forall i, In i (spC (ctl w)) -> even_bounds h i;
  pf_fresh : fresh_steps (wps w p) h (spCost (ctl w));
  pf_bounds : spB (ctl w) <> [] \/ stale world0 false h = false;
  pf_solve : solve e w = Some (b, w')
}.

(** ** C69: what the choice of the initial state minimizes *)
(** the registered costs of the controls [V] from the state [y], with the 1e-6/2 ||V||^2 of LMPC *)
Definition cost_from (h : list op) (w : world) (ps : psys) (y V : nat -> Qc) : Qc :=
  (total_cost_from ps h (spCost (ctl w)) y V + regularization (fullUDim ps) V)%Qc.
(** the cost of the initial state: 1/2 y'Ry + r'y *)
Definition start_cost (n : nat) (s : ist) (y : nat -> Qc) : Qc := objective n (at_ (isR s)) (vget (isr s)) y.
(** [best y]: the cheapest controls from y when nothing is imposed *)
Definition best_response (cost : (nat -> Qc) -> (nat -> Qc) -> Qc) (best : (nat -> Qc) -> nat -> Qc) : Prop :=
  forall y V, (cost y (best y) <= cost y V)%Qc.
(** a pair of initial state and controls that satisfies what is registered *)
Definition pair_admissible (n : nat) (h : list op) (w : world) (s : ist) (ps : psys) (y V : nat -> Qc) : Prop :=
  within_bounds n (vget (isx0lb s)) (vget (isx0ub s)) y /\ all_imposed_from ps h (spC (ctl w)) y V /\
  (spB (ctl w) = [] -> representable (fullUDim ps) V).
(** half the difference of the costs, from the state 0, of moving the controls by [D] and by [-D], where D is how much the
    cheapest controls from y differ from those from 0; it is 0 when the costs are even in the controls from the state 0 *)
Definition tilt (cost : (nat -> Qc) -> (nat -> Qc) -> Qc) (best : (nat -> Qc) -> nat -> Qc) (y : nat -> Qc) : Qc :=
  let zero := fun _ : nat => 0%Qc in
  let D := fun j => (best y j - best zero j)%Qc in
  (half * (cost zero D - cost zero (fun j => - D j)))%Qc.
(** M x - p, M U - p, ... with p = 0 *)
Definition zero_target (d : cost_data) : Prop :=
  match d with
  | DTrajC M p | DTargetC M p | DCtrlC M p | DMixedC M _ p => forall r, r < rows M -> vget p r = 0%Qc
  end.
