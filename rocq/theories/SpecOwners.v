(** SpecOwners.v -- C70: who owns a constraint or a cost, in a program with several controllers. *)
From Verif Require Import Base Eigen Preview AutoSpan Constraints Costs Controller SpecController Controllers.

(** the calls of the program that are not calls on a controller *)
Definition not_on_controllers (h : list mop) : list op :=
  flat_map (fun a => match a with MShared o => if is_shared o then [o] else [] | MCtl _ _ => [] end) h.
(** the user has a pointer to constraint [i] (cost [i]) after the calls [h]; pointers are counted as in SpecController.v *)
Definition user_has_con (h : list mop) (i : nat) : Prop := 0 < con_pointers i 0 0 (not_on_controllers h).
Definition user_has_cost (h : list mop) (i : nat) : Prop := 0 < cost_pointers i 0 0 (not_on_controllers h).
(** a controller other than [c], out of [K], has it registered *)
Definition other_has_con (K c : nat) (W : mworld) (i : nat) : Prop := exists a, a < K /\ a <> c /\ In i (spC (mctl W a)).
Definition other_has_cost (K c : nat) (W : mworld) (i : nat) : Prop := exists a, a < K /\ a <> c /\ In i (spCost (mctl W a)).
(** how often it is registered *)
Definition times (l : list nat) (i : nat) : nat := count_occ Nat.eq_dec l i.
(** the constraints registered in [c] that are of class [t], in order *)
Definition mregistered_of (t : cflag) (W : mworld) (c : nat) : list nat :=
  filter (fun i => match constraintType (mcon W i), t with
                   | EqualityConstraint, EqualityConstraint | InequalityConstraint, InequalityConstraint
                   | BoundConstraint, BoundConstraint => true
                   | _, _ => false end) (spC (mctl W c)).
(** a history made of solves only *)
Definition solves_only (h : list mop) : Prop := forall a, In a h -> exists c e, a = MCtl c (OSolve e).
