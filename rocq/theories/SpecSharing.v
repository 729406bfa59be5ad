(** SpecSharing.v -- C57: controllers that share no constraint and no cost. *)
From Verif Require Import Base Eigen Preview AutoSpan Constraints Costs Controller Controllers.

(** a call on a constraint or cost concerns only the objects of [C], [K] *)
Definition concerns (C K : nat -> bool) (o : op) : bool :=
  match o with
  | OHoldCon i | OReleaseCon i | OSpanCon _ i => C i
  | OHoldCost i | OReleaseCost i | OSpanCost _ i | OWeights i _ | OWeight i _ => K i
  | _ => true
  end.
(** only controller [c] is ever given the constraints of [C] and the costs of [K], and it is given no other *)
Definition separated (c : nat) (C K : nat -> bool) (h : list mop) : Prop :=
  (forall a j i, In (MCtl a (OAddCon j i)) h -> C i = Nat.eqb a c) /\
  (forall a j i, In (MCtl a (OAddCost j i)) h -> K i = Nat.eqb a c).
(** the program without the other controllers and their objects.  All that is left of the solve of another controller is
    that its preview system is up to date. *)
Definition alone1 (n c : nat) (C K : nat -> bool) (w : mworld) (a : mop) : list op :=
  match a with
  | MShared o => if is_shared o && concerns C K o then [o] else []
  | MCtl d o =>
      if (d <? n) && negb (is_shared o)
      then if Nat.eqb d c then [o]
           else match o, m_ps (mctl w d) with OSolve _, Some p => [OPs p PEnsureUpdated] | _, _ => [] end
      else []
  end.
Fixpoint alone (n c : nat) (C K : nat -> bool) (w : mworld) (h : list mop) : list op :=
  match h with
  | [] => []
  | a :: t => alone1 n c C K w a ++ match mstep n w a with Ok w' | Throw _ w' => alone n c C K w' t | UB => [] end
  end.
