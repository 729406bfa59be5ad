(** Moves.v -- moving controllers: the move constructor and the move assignment of LMPC (include/LMPC.h 52-55), which are
    defaulted: each member is moved (include/LMPC.h 156-190).  InitialStateLMPC declares neither (include/InitialStateLMPC.h
    18-46), hence has the implicit ones, which move its four members too.
    Members: the shared and the unique pointer are null afterwards, the vectors are empty, the two ints and the two durations
    are copied; a matrix is left empty by the move constructor (Eigen takes the storage) and is exchanged by the move
    assignment (Eigen swaps the storages).  That a std::vector moved from is empty is what the common standard libraries do.
    Not modelled: assigning a controller to itself, and slicing (moving an InitialStateLMPC into an LMPC). *)
From Verif Require Import Base Eigen Preview AutoSpan Constraints Costs Controller Controllers.

(** a program, and for each controller whether [sol_] is non-null (include/LMPC.h 174) *)
Record vworld := VWorld { vm : mworld; vsol : nat -> bool }.

(** a call; [LMPC b(std::move(a))] in the place of [b] (which is destroyed if it exists); [b = std::move(a)];
    [c.useSolver(nullptr)] (src/LMPC.cpp 67-70) *)
Inductive vop := VCall (o : mop) | VMoveNew (a b : nat) | VMoveAssign (a b : nat) | VNoSolver (c : nat).

Definition same_class (m m' : lmpc) : bool :=
  match m_is m, m_is m' with None, None => true | Some _, Some _ => true | _, _ => false end.
(** the source after the move constructor: include/LMPC.h 53, members 156-190 *)
Definition moved_new (m : lmpc) : lmpc :=
  LMPC (match m_is m with None => None | Some _ => Some (IST mempty qempty eempty eempty) end)
    None (nrEq m) (nrIneq m) [] [] [] [] [] qp_empty qempty qempty qempty (solveTime m) (sabTime m).
(** the source after the move assignment to [t]: include/LMPC.h 55, members 156-190 *)
Definition moved_assign (m t : lmpc) : lmpc :=
  LMPC (m_is t) None (nrEq m) (nrIneq m) [] [] [] [] [] (m_qp t) (m_traj t) (m_ctrl t) qempty (solveTime m) (sabTime m).
Definition set_mctl (w : mworld) (f : nat -> lmpc) : mworld :=
  MWorld (mps w) (mncon w) (mcon w) (mhcon w) (mncost w) (mcost w) (mhcost w) f.
Definition move_to (w : vworld) (a b : nat) (left : lmpc) : vworld :=
  VWorld (set_mctl (vm w) (upd (upd (mctl (vm w)) b (mctl (vm w) a)) a left)) (upd (upd (vsol w) b (vsol w a)) a false).

(** whether the call uses [sol_->] (src/LMPC.cpp 88, 91), and whether it sets [sol_] (src/LMPC.cpp 52, 57, 64, 69;
    src/InitialStateLMPC.cpp 15-28) *)
Definition uses_solver (o : op) : bool := match o with OSolve _ => true | _ => false end.
Definition sets_solver (o : op) : bool := match o with OSolver _ | OConstruct _ _ _ => true | _ => false end.

(** one call; what cannot be written in a program with [K] controllers is skipped *)
Definition vstep (K : nat) (w : vworld) (v : vop) : outcome vworld :=
  match v with
  | VCall (MShared o) => out_map (fun x => VWorld x (vsol w)) (mstep K (vm w) (MShared o))
  | VCall (MCtl c o) =>
      if (c <? K) && uses_solver o && negb (vsol w c) then UB
      else out_map (fun x => VWorld x (if sets_solver o then upd (vsol w) c true else vsol w)) (mstep K (vm w) (MCtl c o))
  | VMoveNew a b =>
      if (a <? K) && (b <? K) && negb (Nat.eqb a b) then Ok (move_to w a b (moved_new (mctl (vm w) a))) else Ok w
  | VMoveAssign a b =>
      if (a <? K) && (b <? K) && negb (Nat.eqb a b) && same_class (mctl (vm w) a) (mctl (vm w) b)
      then Ok (move_to w a b (moved_assign (mctl (vm w) a) (mctl (vm w) b))) else Ok w
  | VNoSolver c => if c <? K then Ok (VWorld (vm w) (upd (vsol w) c false)) else Ok w
  end.
Fixpoint vrun (K : nat) (w : vworld) (h : list vop) : option vworld :=
  match h with
  | [] => Some w
  | a :: t => match vstep K w a with Ok w' | Throw _ w' => vrun K w' t | UB => None end
  end.
(** nothing called yet: every controller is LMPC(flag) *)
Definition vworld0 : vworld := VWorld mworld0 (fun _ => true).
