(** SpecController.v -- vocabulary for the statements about the controller. *)
From Verif Require Import Base Eigen Spec Preview SpecApi AutoSpan Constraints Costs Controller Checkers.

(** the world after a defined history of calls *)
Definition reached (h : list op) (w : world) : Prop := run world0 h = Some w.

(** the registered constraints of one class of rows, in order of registration *)
Definition registered_of (t : cflag) (w : world) : list nat :=
  filter (fun i => match constraintType (wcon w i), t with
                   | EqualityConstraint, EqualityConstraint | InequalityConstraint, InequalityConstraint
                   | BoundConstraint, BoundConstraint => true
                   | _, _ => false end) (spC (ctl w)).

(** the pointers the user still has to constraint [i] (cost [i]) after the calls [h], given that [made] objects were made and
    [held] pointers to [i] held before: making it gives one, copying one gives one more, dropping one takes one away; nothing
    else counts *)
Fixpoint con_pointers (i made held : nat) (h : list op) : nat :=
  match h with
  | [] => held
  | ONewCon _ :: t => con_pointers i (S made) (if Nat.eqb made i then 1 else held) t
  | OHoldCon k :: t => con_pointers i made (if Nat.eqb k i && (0 <? held) then S held else held) t
  | OReleaseCon k :: t => con_pointers i made (if Nat.eqb k i then pred held else held) t
  | _ :: t => con_pointers i made held t
  end.
Fixpoint cost_pointers (i made held : nat) (h : list op) : nat :=
  match h with
  | [] => held
  | ONewCost _ :: t => cost_pointers i (S made) (if Nat.eqb made i then 1 else held) t
  | OHoldCost k :: t => cost_pointers i made (if Nat.eqb k i && (0 <? held) then S held else held) t
  | OReleaseCost k :: t => cost_pointers i made (if Nat.eqb k i then pred held else held) t
  | _ :: t => cost_pointers i made held t
  end.

(** [l'] is [l] without its first occurrence of [i] *)
Definition first_removed (i : nat) (l l' : list nat) : Prop :=
  exists a b, l = a ++ i :: b /\ ~ In i a /\ l' = a ++ b.

(** a solver answering the zero vector, and one answering failure *)
Definition env_with (ok : bool) (f : nat -> vec Qc) : senv :=
  SEnv j0 (fun m => m) (fun n _ _ _ => (ok, f n)) (qz 0) (qz 1) (qz 3) (qz 4).
Definition env_ok : senv := env_with true (fun n => vconst n 0%Qc).
Definition env_fail : senv := env_with false (fun n => vconst n 0%Qc).

(** a controller on the 2-state system over 3 steps *)
Definition h_start : list op := [OPs 0 (PSystem exA exB exd exx0 3); OConstruct j0 (CLMPCps 0) qempty].
Definition d_traj : con_data := DTraj (mlit [[1; 0]]%Z) (elit [fin 25]) true.
Definition d_eq : con_data := DCtrl (mlit [[1; 0; 0]]%Z) (elit [fin 5]) false.
Definition d_bound : con_data := DCtrlB (elit [fin (-9)]) (elit [fin 9]).
Definition d_cost : cost_data := DTargetC (mlit [[1; 0]; [0; 1]]%Z) (vlit [4; 4]%Z).

(** ** What a problem assembled from registered objects is *)

(** sum over a list of registered objects *)
Fixpoint lsum (l : list nat) (f : nat -> Qc) : Qc :=
  match l with [] => 0%Qc | i :: t => (f i + lsum t f)%Qc end.
(** number of rows contributed by a list of constraints *)
Definition rows_of (nr : nat -> nat) (l : list nat) : nat := list_sum (map nr l).
(** [A], [b] are the rows of the objects of [l], one block after the other, in this order, and nothing else:
    object [i] contributes the rows [row i 0 .. row i (nr i - 1)] of [n] entries, with right-hand sides [rhs i] *)
Definition stacked (nr : nat -> nat) (row : nat -> nat -> nat -> Qc) (rhs : nat -> nat -> ext)
    (n : nat) (l : list nat) (A : mx) (b : vec ext) : Prop :=
  rows A = rows_of nr l /\ cols A = n /\ vsize b = rows_of nr l /\
  forall l1 i l2, l = l1 ++ i :: l2 -> forall r, r < nr i ->
    (forall j, j < n -> at_ A (rows_of nr l1 + r) j = row i r j) /\
    vget b (rows_of nr l1 + r) = rhs i r.

(** ** Honest use of preview systems *)

(** xInit gets a vector of the size of the state; the public fields A, B, d are only given new values of the same
    sizes while isUpdated is false (PreviewSystem.h 54: "setting this to false will force a new update") *)
Definition honest_op (w : world) (o : op) : Prop :=
  match o with
  | OPs p (PXInit x) => vsize x = xDim (wps w p)
  | OPs p (PSetModel A B d) => isUpdated (wps w p) = false /\
      rows A = xDim (wps w p) /\ cols A = xDim (wps w p) /\ rows B = xDim (wps w p) /\ cols B = uDim (wps w p) /\
      vsize d = xDim (wps w p)
  | _ => True
  end.
Fixpoint honest (w : world) (h : list op) : Prop :=
  match h with
  | [] => True
  | o :: t => honest_op w o /\ match step w o with Ok w' | Throw _ w' => honest w' t | UB => True end
  end.
(** the same as a test *)
Definition honest_opb (w : world) (o : op) : bool :=
  match o with
  | OPs p (PXInit x) => Nat.eqb (vsize x) (xDim (wps w p))
  | OPs p (PSetModel A B d) => negb (isUpdated (wps w p)) &&
      Nat.eqb (rows A) (xDim (wps w p)) && Nat.eqb (cols A) (xDim (wps w p)) && Nat.eqb (rows B) (xDim (wps w p)) &&
      Nat.eqb (cols B) (uDim (wps w p)) && Nat.eqb (vsize d) (xDim (wps w p))
  | _ => true
  end.
Fixpoint honestb (w : world) (h : list op) : bool :=
  match h with
  | [] => true
  | o :: t => honest_opb w o && match step w o with Ok w' | Throw _ w' => honestb w' t | UB => true end
  end.
