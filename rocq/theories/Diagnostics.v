(** Diagnostics.v -- what solve() and inform() print, and what the solvers report: the warnings of the automatic deletion
    (src/LMPC.cpp 288-307, include/debugUtils.h 14-20) and the diagnostic functions of the solver adapters
    (src/SolverInterface.cpp 15-34, src/LSSOLSolver.cpp, src/QLDSolver.cpp, src/OSQPSolver.cpp, src/QuadProgSolver.cpp). *)
From Coq Require Import String.
From Verif Require Import Base Eigen Preview AutoSpan Constraints Costs Controller Messages Solvers.
Local Open Scope string_scope.

(** src/LMPC.cpp 293-294 *)
Definition warning (name : string) : string :=
  "A '" ++ name ++ "' has been destroyed." ++ newline ++ "It has been removed from the controller" ++ newline.
(** src/LMPC.cpp 290-301: what one run of the lambda [check] prints, with useWarn *)
Fixpoint check_log (uc : list nat -> nat -> nat) (name : nat -> string) (lim : nat) (kept todo : list nat) : list string :=
  match todo with
  | [] => []
  | i :: t => if (uc (kept ++ i :: t)%list i <=? lim)%nat then warning (name i) :: check_log uc name lim kept t
              else check_log uc name lim (kept ++ [i])%list t
  end.
(** src/LMPC.cpp 303-307: only the first and the last run warn; include/debugUtils.h 14-20: with NDEBUG nothing is printed *)
Definition deletion_warnings (ndebug : bool) (w : world) : list string :=
  let m := ctl w in
  if ndebug then [] else
  (check_log (fun l => use_con (hcon w) l (spEq m) (spIneq m) (spB m)) (fun i => c_name (ck (wcon w i)) (isIneq (wcon w i))) 2 [] (spC m) ++
  check_log (fun l i => hcost w i + cnt i l) (fun i => k_name (kk (wcost w i))) 1 [] (spCost m))%list.
(** what solve() prints on stderr (src/LMPC.cpp 79-101: the solver does not change the lists) *)
Definition solve_warnings (ndebug : bool) (e : senv) (w : world) : option (list string) :=
  w1 <- build e w ;; Some (deletion_warnings ndebug w1).

(** what a QP library reports of its last run: status, number of iterations, text of its own inform *)
Record report := Report { r_fail : Z; r_iter : Z; r_text : string }.
(** SI_fail: src/LSSOLSolver.cpp 14-17, src/QLDSolver.cpp 19-22, src/OSQPSolver.cpp 31-34, src/QuadProgSolver.cpp 14-17 *)
Definition SI_fail (k : adapter) (r : report) : Z := r_fail r.
(** SI_iter: src/LSSOLSolver.cpp 19-22, src/OSQPSolver.cpp 41-44, src/QuadProgSolver.cpp 19-22; QLD: src/SolverInterface.cpp 15-18 *)
Definition SI_iter (k : adapter) (r : report) : Z :=
  match k with ALSSOL | AOSQP | AQuadProg => r_iter r | AQLD => 0%Z end.
(** src/QLDSolver.cpp 24-57 *)
Definition qld_inform (code : Z) : string :=
  match code with
  | 0 => "The optimality conditions are satisfied."
  | 1 => "The algorithm has been stopped after too many MAXIT iterations (40*(N+M))."
  | 2 => "Termination accuracy insufficient to satisfy convergence criterion."
  | 3 => "Internal inconsistency of QL, division by zero."
  | 4 => "Numerical instability prevents successful termination. Use tolerance specified in WAR(1) for a restart."
  | 5 => "Length of a working array is too short."
  | _ => "Constraints are inconsistent and IFAIL=100+ICON, where ICON denotes a constraint causing the conflict."
  end%Z ++ newline.
(** src/QuadProgSolver.cpp 24-38: nothing for another code *)
Definition quadprog_inform (code : Z) : string :=
  match code with
  | 0 => "No problems" ++ newline
  | 1 => "The minimization problem has no solution" ++ newline
  | 2 => "Problems with the decomposition of Q (Is it symmetric?)" ++ newline
  | _ => ""
  end%Z.
(** SI_inform; LSSOL and OSQP print the text of the library (src/LSSOLSolver.cpp 35-38, src/OSQPSolver.cpp 36-39);
    LMPC::inform() is SI_inform of the current solver (src/LMPC.cpp 103-106) *)
Definition SI_inform (k : adapter) (r : report) : string :=
  match k with ALSSOL | AOSQP => r_text r | AQLD => qld_inform (r_fail r) | AQuadProg => quadprog_inform (r_fail r) end.
(** SI_printLevel: LSSOL passes the level (src/LSSOLSolver.cpp 40-43), QLD and OSQP a flag (src/QLDSolver.cpp 59-62,
    src/OSQPSolver.cpp 66-69), QuadProg has none (src/SolverInterface.cpp 31-34).  [quiet]: the library prints nothing. *)
Record verbosity := Verbosity { v_level : Z; v_flag : bool }.
Definition SI_printLevel (k : adapter) (pl : Z) (v : verbosity) : verbosity :=
  match k with
  | ALSSOL => Verbosity pl (v_flag v)
  | AQLD | AOSQP => Verbosity (v_level v) (negb (pl =? 0)%Z)
  | AQuadProg => v
  end.
Definition quiet (k : adapter) (v : verbosity) : bool :=
  match k with ALSSOL => (v_level v =? 0)%Z | AQLD | AOSQP => negb (v_flag v) | AQuadProg => true end.
