(** SpecLoop.v -- C64: the receding horizon loop: solve, apply the first control, give the state reached to the preview
    system, solve again. *)
From Verif Require Import Base Eigen Spec Preview SpecApi AutoSpan Constraints SpecConstraints Costs Controller SpecController SpecEndToEnd SpecTail.

(** the loop run from [w0] with the preview system [p]: the calls made, the world reached, and for each turn the state that
    was measured and the control that was computed (its first entries are applied) *)
Inductive closed_loop (p : nat) (w0 : world) : list op -> world -> list (vec Qc * vec Qc) -> Prop :=
| loop_start : closed_loop p w0 [] w0 []
| loop_turn g w T e w1 x w2 :
    closed_loop p w0 g w T -> exact_solver e ->
    (* solve() returns true; ps->xInit(x), the state the plan reaches after one step *)
    solve e w = Some (true, w1) ->
    vsize x = xDim (wps w p) -> is_part (xDim (wps w p)) (m_traj (ctl w1)) x ->
    step w1 (OPs p (PXInit x)) = Ok w2 ->
    closed_loop p w0 (g ++ [OSolve e; OPs p (PXInit x)]) w2 (T ++ [(x0 (wps w p), m_ctrl (ctl w1))]).

(** data given for one step *)
Definition one_step (n m : nat) (d : con_data) : Prop :=
  match d with
  | DTraj E _ _ => cols E = n
  | DCtrl G _ _ => cols G = m
  | DMixed E G _ _ => cols E = n /\ cols G = m
  | DTrajB lower _ => vsize lower = n
  | DCtrlB lower _ => vsize lower = m
  end.
(** what such a constraint asks of a state and a control (trajectory bounds: what copra imposes, see C10) *)
Definition holds_at (n m : nat) (d : con_data) (x u : nat -> Qc) : Prop :=
  match d with
  | DTraj E f q => forall i, i < rows E -> cmp q (apply n (at_ E) x i) (vget f i)
  | DCtrl G f q => forall i, i < rows G -> cmp q (apply m (at_ G) u i) (vget f i)
  | DMixed E G f q => forall i, i < rows E -> cmp q (apply n (at_ E) x i + apply m (at_ G) u i)%Qc (vget f i)
  | DTrajB lower upper => below_both n lower upper x
  | DCtrlB lower upper => within_bounds m (vget lower) (vget upper) u
  end.
(** a constraint on the whole trajectory that speaks of its last state only, and what it asks of this state *)
Definition final_only (n N : nat) (d : con_data) : Prop :=
  match d with
  | DTraj E _ _ => cols E = n * (N + 1) /\ forall i j, i < rows E -> j < n * N -> at_ E i j = 0%Qc
  | _ => False
  end.
Definition holds_at_end (n N : nat) (d : con_data) (x : nat -> Qc) : Prop :=
  match d with
  | DTraj E f q => forall i, i < rows E -> cmp q (apply n (fun a b => at_ E a (n * N + b)) x i) (vget f i)
  | _ => False
  end.
(** A x + B u + d *)
Definition next_state (ps : psys) (x u : nat -> Qc) (i : nat) : Qc :=
  (apply (xDim ps) (at_ (psA ps)) x i + apply (uDim ps) (at_ (psB ps)) u i + vget (psd ps) i)%Qc.
(** x, u is an equilibrium of the system *)
Definition equilibrium (ps : psys) (x u : nat -> Qc) : Prop := forall i, i < xDim ps -> next_state ps x u i = x i.
(** the equilibrium [xe], [ue] satisfies the constraint [d], which is per step or on the final state *)
Definition suits (n m N : nat) (xe ue : nat -> Qc) (d : con_data) : Prop :=
  (one_step n m d /\ holds_at n m d xe ue) \/ (final_only n N d /\ holds_at_end n N d xe).
(** [d] asks that the final state be [xe] *)
Definition ends_at (n N : nat) (xe : nat -> Qc) (d : con_data) : Prop :=
  final_only n N d /\ forall x, holds_at_end n N d x -> forall i, i < n -> x i = xe i.
