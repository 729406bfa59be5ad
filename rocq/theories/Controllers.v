(** Controllers.v -- several controllers that live in one program and share preview systems, constraints and costs.
    The members of a controller are its own (include/LMPC.h 150-190); preview systems, constraints and costs are reached
    through shared pointers (include/LMPC.h 49, 71, 88, 93, 166-175).  A call on one controller is the call of Controller.v,
    the outside owners of an object being the user's and the other controllers. *)
From Verif Require Import Base Eigen Preview AutoSpan Constraints Costs Controller.

(** the shared objects, the numbers of handles the user has on them, and the members of each controller *)
Record mworld := MWorld {
  mps : nat -> psys;
  mncon : nat; mcon : nat -> constr; mhcon : nat -> nat;
  mncost : nat; mcost : nat -> cost; mhcost : nat -> nat;
  mctl : nat -> lmpc
}.

(** a call: on a preview system, a constraint or a cost, or on controller [c] *)
Inductive mop := MShared (o : op) | MCtl (c : nat) (o : op).

(** calls that are not member functions of a controller *)
Definition is_shared (o : op) : bool :=
  match o with
  | OPs _ _ | ONewCon _ | OHoldCon _ | OReleaseCon _ | OSpanCon _ _
  | ONewCost _ | OHoldCost _ | OReleaseCost _ | OSpanCost _ _ | OWeights _ _ | OWeight _ _ => true
  | _ => false
  end.
(** the user needs a handle on the object given as argument of a call *)
Definition can_write (w : mworld) (o : op) : bool :=
  match o with
  | OAddCon _ i | ORemoveCon i => 0 <? mhcon w i
  | OAddCost _ i | ORemoveCost i => 0 <? mhcost w i
  | _ => true
  end.

(** shared pointers to constraint [i], to cost [i], in the vectors of a controller (include/LMPC.h 166-169, 175) *)
Definition held_con (m : lmpc) (i : nat) : nat := cnt i (spC m) + cnt i (spEq m) + cnt i (spIneq m) + cnt i (spB m).
Definition held_cost (m : lmpc) (i : nat) : nat := cnt i (spCost m).
(** in the vectors of the controllers other than [c], out of [K] *)
Fixpoint others (K c : nat) (f : nat -> nat) : nat :=
  match K with 0 => 0 | S k => others k c f + (if Nat.eqb k c then 0 else f k) end.

(** the program as controller [c] sees it *)
Definition view (K c : nat) (w : mworld) : world :=
  World (mps w) (mncon w) (mcon w) (fun i => mhcon w i + others K c (fun a => held_con (mctl w a) i))
    (mncost w) (mcost w) (fun i => mhcost w i + others K c (fun a => held_cost (mctl w a) i)) (mctl w c).
Definition put (c : nat) (w : mworld) (v : world) : mworld :=
  MWorld (wps v) (ncon v) (wcon v) (mhcon w) (ncost v) (wcost v) (mhcost w) (upd (mctl w) c (ctl v)).
(** the program without its controllers *)
Definition base (w : mworld) : world :=
  World (mps w) (mncon w) (mcon w) (mhcon w) (mncost w) (mcost w) (mhcost w) (lmpc_default None qempty).
Definition put_shared (w : mworld) (v : world) : mworld :=
  MWorld (wps v) (ncon v) (wcon v) (hcon v) (ncost v) (wcost v) (hcost v) (mctl w).

(** one call; what cannot be written in a program with [K] controllers is skipped *)
Definition mstep (K : nat) (w : mworld) (a : mop) : outcome mworld :=
  match a with
  | MShared o => if is_shared o then out_map (put_shared w) (step (base w) o) else Ok w
  | MCtl c o => if (c <? K) && negb (is_shared o) && can_write w o then out_map (put c w) (step (view K c w) o) else Ok w
  end.
Fixpoint mrun (K : nat) (w : mworld) (h : list mop) : option mworld :=
  match h with
  | [] => Some w
  | a :: t => match mstep K w a with Ok w' | Throw _ w' => mrun K w' t | UB => None end
  end.
(** nothing called yet: every controller is LMPC(flag) *)
Definition mworld0 : mworld :=
  MWorld (fun _ => ps_default) 0 (fun _ => mkCtrlB eempty eempty) (fun _ => 0)
    0 (fun _ => mkCtrlC mempty qempty) (fun _ => 0) (fun _ => lmpc_default None qempty).
