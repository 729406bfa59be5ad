(** SpecMoves.v -- C62: what a user expects of a controller that is moved. *)
From Verif Require Import Base Eigen Preview AutoSpan Constraints Costs Controller Controllers Moves.

(** the call uses controller [c] *)
Definition mentions (c : nat) (v : vop) : bool :=
  match v with
  | VCall (MShared _) => false
  | VCall (MCtl d _) => Nat.eqb d c
  | VMoveNew a b | VMoveAssign a b => Nat.eqb a c || Nat.eqb b c
  | VNoSolver d => Nat.eqb d c
  end.
Definition without (c : nat) (h : list vop) : Prop := forall v, In v h -> mentions c v = false.
(** the same program, where controllers [a] and [b] have exchanged their names *)
Definition swap (a b c : nat) : nat := if Nat.eqb c a then b else if Nat.eqb c b then a else c.
Definition rename1 (s : nat -> nat) (v : vop) : vop :=
  match v with
  | VCall (MShared o) => VCall (MShared o)
  | VCall (MCtl c o) => VCall (MCtl (s c) o)
  | VMoveNew a b => VMoveNew (s a) (s b)
  | VMoveAssign a b => VMoveAssign (s a) (s b)
  | VNoSolver c => VNoSolver (s c)
  end.
Definition rename (a b : nat) (h : list vop) : list vop := map (rename1 (swap a b)) h.

(** preview systems, constraints, costs and the handles on them *)
Definition same_objects (w w' : mworld) : Prop :=
  mps w = mps w' /\ mncon w = mncon w' /\ mncost w = mncost w' /\
  (forall i, mcon w i = mcon w' i) /\ (forall i, mhcon w i = mhcon w' i) /\
  (forall i, mcost w i = mcost w' i) /\ (forall i, mhcost w i = mhcost w' i).

(** the exceptions thrown and the values returned by the calls of a history (solve() returns a bool) *)
Inductive answer := Returned | Solved (b : bool) | Threw (e : exn).
Definition answer1 (K : nat) (w : vworld) (v : vop) : answer :=
  match vstep K w v with
  | Throw e _ => Threw e
  | _ => match v with
         | VCall (MCtl c (OSolve e)) =>
             if c <? K then match solve e (view K c (vm w)) with Some (b, _) => Solved b | None => Returned end else Returned
         | _ => Returned
         end
  end.
Fixpoint answers (K : nat) (w : vworld) (h : list vop) : list answer :=
  match h with
  | [] => []
  | v :: t => answer1 K w v :: match vstep K w v with Ok w' | Throw _ w' => answers K w' t | UB => [] end
  end.
