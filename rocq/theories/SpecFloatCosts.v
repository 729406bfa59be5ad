(** SpecFloatCosts.v -- C61: the size of the rounding errors of the cost functions. *)
From Coq Require Import Qcabs.
From Verif Require Import Base Eigen Spec Preview SpecApi AutoSpan Constraints Costs SpecCosts CostMeaning Floats SpecFloats FloatCosts.
Open Scope Qc_scope.

(** the values of SpecCosts.v with absolute values everywhere: how large the terms of the cost can be *)
Definition traj_size (ps : psys) (M : mx) (p w : vec Qc) (x U : nat -> Qc) : Qc :=
  if Nat.eqb (cols M) (xDim ps)
  then sum (nrXStep ps) (fun k => wsq (rows M) (vabs (vget w)) (fun i =>
         apply (xDim ps) (mabs (at_ M)) (size_of ps x U k) i + Qcabs (vget p i)))
  else wsq (rows M) (vabs (vget w)) (fun i => apply (fullXDim ps) (mabs (at_ M)) (stacked_size ps x U) i + Qcabs (vget p i)).
Definition target_size (ps : psys) (M : mx) (p w : vec Qc) (x U : nat -> Qc) : Qc :=
  wsq (rows M) (vabs (vget w)) (fun i => apply (xDim ps) (mabs (at_ M)) (size_of ps x U (nrUStep ps)) i + Qcabs (vget p i)).
Definition ctrl_size (ps : psys) (N : mx) (p w : vec Qc) (U : nat -> Qc) : Qc :=
  if Nat.eqb (cols N) (uDim ps)
  then sum (nrUStep ps) (fun k => wsq (rows N) (vabs (vget w)) (fun i =>
         apply (uDim ps) (mabs (at_ N)) (control_at (uDim ps) (vabs U) k) i + Qcabs (vget p i)))
  else wsq (rows N) (vabs (vget w)) (fun i => apply (fullUDim ps) (mabs (at_ N)) (vabs U) i + Qcabs (vget p i)).
Definition mixed_size (ps : psys) (M N : mx) (p w : vec Qc) (x U : nat -> Qc) : Qc :=
  if Nat.eqb (cols M) (xDim ps) && Nat.eqb (cols N) (uDim ps)
  then sum (nrUStep ps) (fun k => wsq (rows M) (vabs (vget w)) (fun i =>
         apply (xDim ps) (mabs (at_ M)) (size_of ps x U k) i
         + apply (uDim ps) (mabs (at_ N)) (control_at (uDim ps) (vabs U) k) i + Qcabs (vget p i)))
  else wsq (rows M) (vabs (vget w)) (fun i =>
         apply (fullXDim ps) (mabs (at_ M)) (stacked_size ps x U) i + apply (fullUDim ps) (mabs (at_ N)) (vabs U) i
         + Qcabs (vget p i)).
Definition doc_size (ps : psys) (c : cost) (x U : nat -> Qc) : Qc :=
  match kk c with
  | TrajectoryCost => traj_size ps (kM c) (kp c) (kw c) x U
  | TargetCost => target_size ps (kM c) (kp c) (kw c) x U
  | ControlCost => ctrl_size ps (kN c) (kp c) (kw c) U
  | MixedCost => mixed_size ps (kM c) (kN c) (kp c) (kw c) x U
  end.
(** the number of roundings on the way to a coefficient: [len] products for each entry of M times the prediction, [steps]
    squares of [rows] residuals added up *)
Definition roundings (ps : psys) (len steps rws : nat) : nat :=
  (2 * (nrUStep ps * (xDim ps + 1) + len) + steps * (rws + 1) + 5)%nat.
Definition cost_roundings (ps : psys) (c : cost) : nat :=
  match kk c with
  | TrajectoryCost => roundings ps (cols (kM c)) (if Nat.eqb (cols (kM c)) (xDim ps) then nrXStep ps else 1) (vsize (kp c))
  | TargetCost => roundings ps (cols (kM c)) 1 (vsize (kp c))
  | ControlCost => roundings ps 0 1 (vsize (kp c))
  | MixedCost => roundings ps (cols (kM c)) (if Nat.eqb (cols (kM c)) (xDim ps) && Nat.eqb (cols (kN c)) (uDim ps)
                                             then nrUStep ps else 1) (vsize (kp c))
  end.
(** successive solves with rounded updates *)
Definition f_cost_history (F : arith) (ps0 : psys) (n : nat) (h : list (vec Qc * psys)) : Prop :=
  Forall (fun a => vsize (fst a) = n /\ computed F (snd a) /\ same_dims (snd a) ps0) h.
(** the computed objective [obj] is worth [value] up to a constant and up to [k] roundings of terms of total size [size] *)
Definition rounded_value (u : Qc) (k : nat) (obj value value0 size : Qc) : Prop :=
  Qcabs (obj - (value - value0)) <= growth u k * size.
(** [c2] is a cost object freshly built as [c0], initialized, and updated (with weights [w] last) in a controller; the objects
    that add to their last value (C19) are at their first update *)
Definition computed_cost (F : arith) (ps : psys) (c0 : cost) (w : vec Qc) (c2 : cost) : Prop :=
  fresh_cost c0 /\ exists j ps0 h c1, initializeCost j ps0 c0 = Ok c1 /\
    f_cost_history F ps0 (vsize (kp c0)) (h ++ ((w, ps) :: nil))%list /\ (h = nil \/ ~ step_entry ps c0) /\
    f_k_updates F (h ++ ((w, ps) :: nil))%list c1 = Some c2.
(** a list of costs: as built, their last weights, and the objects in the controller *)
Definition item : Type := (cost * vec Qc * cost)%type.
Definition item_cost (ps : psys) (x U : nat -> Qc) (a : item) : Qc := let '(c0, w, _) := a in doc_cost ps (set_w c0 w) x U.
Definition item_size (ps : psys) (x U : nat -> Qc) (a : item) : Qc := let '(c0, w, _) := a in doc_size ps (set_w c0 w) x U.
Definition items_cost (ps : psys) (x U : nat -> Qc) (l : list item) : Qc := fold_right (fun a s => item_cost ps x U a + s) 0 l.
Definition items_size (ps : psys) (x U : nat -> Qc) (l : list item) : Qc := fold_right (fun a s => item_size ps x U a + s) 0 l.
Definition items_computed (F : arith) (ps : psys) (l : list item) : Prop :=
  Forall (fun a => let '(c0, w, c2) := a in computed_cost F ps c0 w c2) l.
(** the costs in turn are added to the objective: two roundings each *)
Definition items_roundings (ps : psys) (l : list item) : nat :=
  (fold_right (fun a m => Nat.max (let '(c0, _, _) := a in cost_roundings ps c0) m) 1 l + 2 * length l)%nat.
