(** Solvers.v -- the adapters between LMPC::solve and the qp libraries (src/QuadProgSolver.cpp, LSSOLSolver.cpp,
    OSQPSolver.cpp, QLDSolver.cpp, GUROBISolver.cpp), their settings, and the factories (src/solverUtils.cpp).
    The libraries are parameters: a function from the sizes announced to [problem] / [resize] and the arguments given
    to [solve], to the success flag and the vector [result()] returns.  A library whose announced sizes are not those of
    its arguments reads out of bounds: [None].  [eigen-*] libraries and printing are not modelled. *)
From Verif Require Import Base Eigen Spec Preview AutoSpan Constraints Costs Controller.

(** -m *)
Definition mopp (m : mx) : mx := Mx (rows m) (cols m) (fun i j => (- at_ m i j)%Qc).
(** -v *)
Definition veopp (v : vec ext) : vec ext := Vec (vsize v) (fun i => ext_opp (vget v i)).
(** m.topRows(n) = e,  m.bottomRows(n) = e *)
Definition setTopRows (m : mx) (n : nat) (e : mx) : option mx := setBlock m 0 0 n (cols m) e.
Definition setBottomRows (m : mx) (n : nat) (e : mx) : option mx :=
  require n <=? rows m ;; setBlock m (rows m - n) 0 n (cols m) e.
(** v.head(n) = e,  v.tail(n) = e *)
Definition setHead {T} (v : vec T) (n : nat) (e : vec T) : option (vec T) := setSeg v 0 n e.
Definition setTail {T} (v : vec T) (n : nat) (e : vec T) : option (vec T) :=
  require n <=? vsize v ;; setSeg v (vsize v - n) n e.

(** ** The libraries *)

(** Eigen::QuadProgDense: problem(nrVar, nrEq, nrInEq), solve(Q, c, Aeq, beq, Aineq, bineq) *)
Record ineq_qp := IneqQP { iQ : mx; ic : vec Qc; iAeq : mx; ibeq : vec ext; iA : mx; ib : vec ext }.
Definition ineq_lib := nat -> nat -> nat -> ineq_qp -> bool * vec Qc.
(** Eigen::LSSOL_QP: resize(nrVar, nrRows), solve(XL, XU, Q, c, A, bl, bu);
    Eigen::OSQP: problem(nrVar, nrRows), solve(Q, c, A, bl, bu, XL, XU) *)
Record box_qp := BoxQP { xQ : mx; xc : vec Qc; xA : mx; xbl : vec ext; xbu : vec ext; xXL : vec ext; xXU : vec ext }.
Definition box_lib := nat -> nat -> box_qp -> bool * vec Qc.
(** Eigen::QLD (with its tolerance), Eigen::GurobiDense: problem(nrVar, nrEq, nrInEq),
    solve(Q, c, Aeq, beq, Aineq, bineq, XL, XU) *)
Definition full_lib := nat -> nat -> nat -> qp -> bool * vec Qc.

(** the announced sizes are those of the arguments *)
Definition ineq_dims (nv ne ni : nat) (p : ineq_qp) : bool :=
  Nat.eqb (rows (iQ p)) nv && Nat.eqb (cols (iQ p)) nv && Nat.eqb (vsize (ic p)) nv &&
  Nat.eqb (rows (iAeq p)) ne && Nat.eqb (cols (iAeq p)) nv && Nat.eqb (vsize (ibeq p)) ne &&
  Nat.eqb (rows (iA p)) ni && Nat.eqb (cols (iA p)) nv && Nat.eqb (vsize (ib p)) ni.
Definition box_dims (nv nr : nat) (p : box_qp) : bool :=
  Nat.eqb (rows (xQ p)) nv && Nat.eqb (cols (xQ p)) nv && Nat.eqb (vsize (xc p)) nv &&
  Nat.eqb (rows (xA p)) nr && Nat.eqb (cols (xA p)) nv && Nat.eqb (vsize (xbl p)) nr && Nat.eqb (vsize (xbu p)) nr &&
  Nat.eqb (vsize (xXL p)) nv && Nat.eqb (vsize (xXU p)) nv.
Definition full_dims (nv ne ni : nat) (q : qp) : bool :=
  Nat.eqb (rows (qQ q)) nv && Nat.eqb (cols (qQ q)) nv && Nat.eqb (vsize (qc q)) nv &&
  Nat.eqb (rows (qAeq q)) ne && Nat.eqb (cols (qAeq q)) nv && Nat.eqb (vsize (qbeq q)) ne &&
  Nat.eqb (rows (qAineq q)) ni && Nat.eqb (cols (qAineq q)) nv && Nat.eqb (vsize (qbineq q)) ni &&
  Nat.eqb (vsize (qlb q)) nv && Nat.eqb (vsize (qub q)) nv.

(** ** QuadProgDenseSolver *)

(** src/QuadProgSolver.cpp 45-52 SI_problem: the sizes announced; int arithmetic *)
Definition quadprog_problem (nrVar nrEq nrInEq : nat) : option (nat * nat * nat) :=
  require fits_int (2 * nrVar) ;;
  require fits_int (nrInEq + 2 * nrVar) ;;
  Some (nrVar, nrEq, nrInEq + 2 * nrVar).
(** src/QuadProgSolver.cpp 54-72 SI_solve: the arguments given to the library; [jm], [jv] are the entries of the
    matrix and vector declared on lines 62, 63 *)
Definition quadprog_args (jm : nat -> nat -> Qc) (jv : nat -> ext) (q : qp) : option ineq_qp :=
  let nrLines := vsize (qlb q) in                                                     (* 59 *)
  let ALines := rows (qAineq q) in                                                    (* 60 *)
  let I := mident nrLines nrLines in                                                  (* 61 *)
  let ineqMat := Mx (ALines + 2 * nrLines) (cols (qAineq q)) jm in                    (* 62 *)
  let ineqVec := Vec (ALines + 2 * nrLines) jv in                                     (* 63 *)
  m1 <- setTopRows ineqMat ALines (qAineq q) ;;                                       (* 64 *)
  m2 <- setBlock m1 ALines 0 nrLines nrLines I ;;                                     (* 65 *)
  m3 <- setBlock m2 (ALines + nrLines) 0 nrLines nrLines (mopp I) ;;                  (* 66 *)
  v1 <- setHead ineqVec ALines (qbineq q) ;;                                          (* 67 *)
  v2 <- setSeg v1 ALines nrLines (qub q) ;;                                           (* 68 *)
  v3 <- setTail v2 nrLines (veopp (qlb q)) ;;                                         (* 69 *)
  Some (IneqQP (qQ q) (qc q) (qAeq q) (qbeq q) m3 v3).                                (* 71 *)
(** SI_problem then SI_solve, as called by LMPC::solve (src/LMPC.cpp 88, 91) *)
Definition quadprog_solver (lib : ineq_lib) (jm : nat -> nat -> Qc) (jv : nat -> ext)
    (nrVar nrEq nrInEq : nat) (q : qp) : option (bool * vec Qc) :=
  d <- quadprog_problem nrVar nrEq nrInEq ;;
  p <- quadprog_args jm jv q ;;
  let '(nv, ne, ni) := d in
  require ineq_dims nv ne ni p ;; Some (lib nv ne ni p).

(** ** LSSOLSolver *)

(** include/LSSOLSolver.h 61-65: Q_, A_, bl_, bu_ *)
Record lssol := LSSOL_ { lsQ : mx; lsA : mx; lsbl : vec ext; lsbu : vec ext }.
(** src/LSSOLSolver.cpp 70-77 SI_problem: the sizes announced and the resized members *)
Definition lssol_problem (jm : nat -> nat -> Qc) (jv : nat -> ext) (s : lssol) (nrVar nrEq nrInEq : nat)
    : option (nat * nat * lssol) :=
  require fits_int (nrEq + nrInEq) ;;
  Some (nrVar, nrEq + nrInEq,
    LSSOL_ (mresize jm (lsQ s) nrVar nrVar) (mresize jm (lsA s) (nrEq + nrInEq) nrVar)
           (vresize jv (lsbl s) (nrEq + nrInEq)) (vresize jv (lsbu s) (nrEq + nrInEq))).
(** src/LSSOLSolver.cpp 79-100 SI_solve *)
Definition lssol_args (s : lssol) (q : qp) : option (lssol * box_qp) :=
  let nrVar := cols (qAeq q) in                                                       (* 84 *)
  let nrEq := rows (qAeq q) in                                                        (* 85 *)
  let nrInEq := rows (qAineq q) in                                                    (* 86 *)
  a1 <- setBlock (lsA s) 0 0 nrEq nrVar (qAeq q) ;;                                   (* 88 *)
  a2 <- setBlock a1 nrEq 0 nrInEq nrVar (qAineq q) ;;                                 (* 89 *)
  l1 <- setHead (lsbl s) nrEq (qbeq q) ;;                                             (* 91 *)
  l2 <- setTail l1 nrInEq (vconst nrInEq NInf) ;;                                     (* 92 *)
  u1 <- setHead (lsbu s) nrEq (qbeq q) ;;                                             (* 94 *)
  u2 <- setTail u1 nrInEq (qbineq q) ;;                                               (* 95 *)
  Some (LSSOL_ (qQ q) a2 l2 u2, BoxQP (qQ q) (qc q) a2 l2 u2 (qlb q) (qub q)).        (* 97, 99 *)
Definition lssol_solver (lib : box_lib) (jm : nat -> nat -> Qc) (jv : nat -> ext) (s : lssol)
    (nrVar nrEq nrInEq : nat) (q : qp) : option (lssol * (bool * vec Qc)) :=
  d <- lssol_problem jm jv s nrVar nrEq nrInEq ;;
  let '(nv, nr, s1) := d in
  r <- lssol_args s1 q ;;
  let '(s2, p) := r in
  require box_dims nv nr p ;; Some (s2, lib nv nr p).

(** ** OSQPSolver *)

(** src/OSQPSolver.cpp 81-84 SI_problem *)
Definition osqp_problem (nrVar nrEq nrInEq : nat) : option (nat * nat) :=
  require fits_int (nrEq + nrInEq) ;; Some (nrVar, nrEq + nrInEq).
(** src/OSQPSolver.cpp 86-102 SI_solve *)
Definition osqp_args (jm : nat -> nat -> Qc) (jv : nat -> ext) (q : qp) : option box_qp :=
  let ne := rows (qAeq q) in
  let ni := rows (qAineq q) in
  a1 <- setTopRows (Mx (ne + ni) (cols (qAeq q)) jm) ne (qAeq q) ;;                   (* 91, 92 *)
  a2 <- setBottomRows a1 ni (qAineq q) ;;                                             (* 93 *)
  l1 <- setHead (Vec (ne + ni) jv) ne (qbeq q) ;;                                     (* 94, 96 *)
  l2 <- setTail l1 ni (vconst ni (Fin (- DBL_MAX)%Qc)) ;;                             (* 97 *)
  u1 <- setHead (Vec (ne + ni) jv) ne (qbeq q) ;;                                     (* 95, 98 *)
  u2 <- setTail u1 ni (qbineq q) ;;                                                   (* 99 *)
  Some (BoxQP (qQ q) (qc q) a2 l2 u2 (qlb q) (qub q)).                                (* 101 *)
Definition osqp_solver (lib : box_lib) (jm : nat -> nat -> Qc) (jv : nat -> ext)
    (nrVar nrEq nrInEq : nat) (q : qp) : option (bool * vec Qc) :=
  d <- osqp_problem nrVar nrEq nrInEq ;;
  p <- osqp_args jm jv q ;;
  let '(nv, nr) := d in
  require box_dims nv nr p ;; Some (lib nv nr p).

(** ** QLDSolver (src/QLDSolver.cpp 74-85), GUROBISolver (src/GUROBISolver.cpp 79-90; this file does not compile, see
    DESIGN.md): the arguments are forwarded.  The tolerance of QLD is a parameter of the library. *)
Definition forward_solver (lib : full_lib) (nrVar nrEq nrInEq : nat) (q : qp) : option (bool * vec Qc) :=
  require full_dims nrVar nrEq nrInEq q ;; Some (lib nrVar nrEq nrInEq q).

(** what LMPC::solve sees of an adapter; [junk] is returned where the run is undefined *)
Definition as_s_qp (f : nat -> nat -> nat -> qp -> option (bool * vec Qc)) (k a b : nat) (q : qp) : bool * vec Qc :=
  match f k a b q with Some r => r | None => (false, vempty 0%Qc) end.
Definition with_solver (e : senv) (f : nat -> nat -> nat -> qp -> option (bool * vec Qc)) : senv :=
  SEnv (s_junk e) (s_inv e) (as_s_qp f) (s_t0 e) (s_t1 e) (s_t2 e) (s_t3 e).

(** ** Settings (src/SolverInterface.cpp 15-56 and the overrides)

    The four solvers whose sources compile; [b_*] are the settings kept by the library object (one type of record for
    all libraries), [q_eps] is QLDSolver::eps_; a library returns what it was given. *)
Inductive adapter := ALSSOL | AQLD | AOSQP | AQuadProg.
Record settings := Settings {
  b_optMaxIter : Z; b_feasMaxIter : Z; b_maxIter : Z; b_feasTol : Qc; b_absTol : Qc; b_warm : bool; q_eps : Qc }.

(** SI_maxIter() const: src/LSSOLSolver.cpp 24-27, src/OSQPSolver.cpp 46-49; base class: SolverInterface.cpp 20-24 *)
Definition SI_maxIter (k : adapter) (s : settings) : Z :=
  match k with
  | ALSSOL => b_optMaxIter s
  | AOSQP => b_maxIter s
  | AQLD | AQuadProg => (-1)%Z
  end.
(** SI_maxIter(int): src/LSSOLSolver.cpp 29-33, src/OSQPSolver.cpp 51-54; base class: SolverInterface.cpp 26-29 *)
Definition SI_set_maxIter (k : adapter) (n : Z) (s : settings) : settings :=
  match k with
  | ALSSOL => Settings n n (b_maxIter s) (b_feasTol s) (b_absTol s) (b_warm s) (q_eps s)
  | AOSQP => Settings (b_optMaxIter s) (b_feasMaxIter s) n (b_feasTol s) (b_absTol s) (b_warm s) (q_eps s)
  | AQLD | AQuadProg => s
  end.
(** SI_feasibilityTolerance() const: src/LSSOLSolver.cpp 45-48; base class: SolverInterface.cpp 36-40.  QLDSolver and
    OSQPSolver override the setter only (include/QLDSolver.h 36, include/OSQPSolver.h 51) *)
Definition SI_feasibilityTolerance (k : adapter) (s : settings) : Qc :=
  match k with
  | ALSSOL => b_feasTol s
  | AQLD | AOSQP | AQuadProg => (- (1))%Qc
  end.
(** SI_feasibilityTolerance(double): src/LSSOLSolver.cpp 50-53, src/QLDSolver.cpp 64-67, src/OSQPSolver.cpp 71-74;
    base class: SolverInterface.cpp 42-45 *)
Definition SI_set_feasibilityTolerance (k : adapter) (t : Qc) (s : settings) : settings :=
  match k with
  | ALSSOL => Settings (b_optMaxIter s) (b_feasMaxIter s) (b_maxIter s) t (b_absTol s) (b_warm s) (q_eps s)
  | AOSQP => Settings (b_optMaxIter s) (b_feasMaxIter s) (b_maxIter s) (b_feasTol s) t (b_warm s) (q_eps s)
  | AQLD => Settings (b_optMaxIter s) (b_feasMaxIter s) (b_maxIter s) (b_feasTol s) (b_absTol s) (b_warm s) t
  | AQuadProg => s
  end.
(** SI_warmStart() const, SI_warmStart(bool): src/LSSOLSolver.cpp 55-63, src/OSQPSolver.cpp 56-64; base class:
    SolverInterface.cpp 47-56 *)
Definition SI_warmStart (k : adapter) (s : settings) : bool :=
  match k with
  | ALSSOL | AOSQP => b_warm s
  | AQLD | AQuadProg => false
  end.
Definition SI_set_warmStart (k : adapter) (w : bool) (s : settings) : settings :=
  match k with
  | ALSSOL | AOSQP =>
      Settings (b_optMaxIter s) (b_feasMaxIter s) (b_maxIter s) (b_feasTol s) (b_absTol s) w (q_eps s)
  | AQLD | AQuadProg => s
  end.
(** the tolerance the library works with: kept by it, or passed to solve (src/QLDSolver.cpp 84) *)
Definition tolerance_used (k : adapter) (s : settings) : option Qc :=
  match k with
  | ALSSOL => Some (b_feasTol s)
  | AOSQP => Some (b_absTol s)
  | AQLD => Some (q_eps s)
  | AQuadProg => None
  end.
(** the classes the factories make *)
Inductive solver_kind := LSSOLSolver | GUROBISolver | QLDSolver | OSQPSolver | QuadProgDenseSolver.

(** ** The factories *)

(** the optional libraries found by CMake (EIGEN_LSSOL_FOUND, EIGEN_GUROBI_FOUND, EIGEN_QLD_FOUND, EIGEN_OSQP_FOUND) *)
Record config := Config { has_lssol : bool; has_gurobi : bool; has_qld : bool; has_osqp : bool }.
(** enum class SolverFlag (include/solverUtils.h 34-50) *)
Inductive flag := F_DEFAULT | F_LSSOL | F_GUROBIDense | F_QLD | F_OSQP | F_QuadProgDense.
Definition flag_eqb (a b : flag) : bool :=
  match a, b with
  | F_DEFAULT, F_DEFAULT | F_LSSOL, F_LSSOL | F_GUROBIDense, F_GUROBIDense | F_QLD, F_QLD | F_OSQP, F_OSQP
  | F_QuadProgDense, F_QuadProgDense => true
  | _, _ => false
  end.
Definition enumerators (c : config) : list flag :=
  [F_DEFAULT] ++ (if has_lssol c then [F_LSSOL] else []) ++ (if has_gurobi c then [F_GUROBIDense] else [])
  ++ (if has_qld c then [F_QLD] else []) ++ (if has_osqp c then [F_OSQP] else []) ++ [F_QuadProgDense].
(** an enumerator without initializer is the previous one plus one, the first is 0 *)
Fixpoint index_of (f : flag) (l : list flag) (k : Z) : option Z :=
  match l with
  | [] => None
  | g :: t => if flag_eqb f g then Some k else index_of f t (k + 1)%Z
  end.
Definition value (c : config) (f : flag) : option Z := index_of f (enumerators c) 0.
(** [case SolverFlag::f:] reached with the value [v]; not compiled ([false]) when [f] is not declared *)
Definition case (c : config) (f : flag) (v : Z) : bool :=
  match value c f with Some k => Z.eqb v k | None => false end.

(** src/solverUtils.cpp 9-34 *)
Definition solverFactory (c : config) (v : Z) : solver_kind :=
  if has_lssol c && case c F_LSSOL v then LSSOLSolver
  else if has_gurobi c && case c F_GUROBIDense v then GUROBISolver
  else if has_qld c && case c F_QLD v then QLDSolver
  else if has_osqp c && case c F_OSQP v then OSQPSolver
  else if case c F_QuadProgDense v then QuadProgDenseSolver
  else QuadProgDenseSolver.
(** src/solverUtils.cpp 36-58 *)
Definition pythonSolverFactory (c : config) (v : Z) : solver_kind :=
  if has_lssol c && case c F_LSSOL v then LSSOLSolver
  else if has_gurobi c && case c F_GUROBIDense v then GUROBISolver
  else if has_qld c && case c F_QLD v then QLDSolver
  else if has_osqp c && case c F_OSQP v then OSQPSolver
  else if case c F_QuadProgDense v then QuadProgDenseSolver
  else QuadProgDenseSolver.
(** the values named in python (binding/python/CopraBindings.cpp 85-96) *)
Definition python_enumerators (c : config) : list flag :=
  [F_DEFAULT] ++ (if has_lssol c then [F_LSSOL] else []) ++ (if has_gurobi c then [F_GUROBIDense] else [])
  ++ (if has_qld c then [F_QLD] else []) ++ [F_QuadProgDense].
