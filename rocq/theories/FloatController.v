(** FloatController.v -- the controllers computing with rounded arithmetic (see Floats.v, FloatCosts.v): the same world and the
    same calls as in Controller.v, where the update of a preview system, the updates of the constraints and of the costs, the sum
    of the costs, the first block of the matrix of InitialStateLMPC and the predicted trajectory are rounded.  [reg] is the double
    written 1e-6.  What is copied (stacking the rows and the bounds) or counted is as in Controller.v.  The solver and the inverse
    of a matrix are any functions: their rounding errors are in their answers. *)
From Verif Require Import Base Eigen Preview AutoSpan Constraints Costs Controller Floats FloatCosts.

(** src/LMPC.cpp 233-235 *)
Definition f_ensureUpdated (F : arith) (ps : psys) : option psys :=
  if isUpdated ps then Some ps else f_updateSystem F ps.
(** src/LMPC.cpp 240-242, 245-247 *)
Definition f_update_cons (F : arith) (ps : psys) (l : list nat) (wc : nat -> constr) : option (nat -> constr) :=
  for_list l (fun i wc => c <- f_c_update F ps (wc i) ;; Some (upd wc i c)) wc.
Definition f_update_costs (F : arith) (ps : psys) (l : list nat) (wk : nat -> cost) : option (nat -> cost) :=
  for_list l (fun i wk => c <- f_k_update F ps (wk i) ;; Some (upd wk i c)) wk.
(** src/LMPC.cpp 228-230 *)
Definition f_resetQP (reg : Qc) (q : qp) : qp :=
  QP (mscal reg (mident (rows (qQ q)) (cols (qQ q)))) (vconst (vsize (qc q)) 0%Qc)
     (qAineq q) (qbineq q) (qAeq q) (qbeq q) (qlb q) (qub q).
(** src/LMPC.cpp 225-248: updateSystem *)
Definition f_lmpc_updateSystem (F : arith) (reg : Qc) (j : junk) (w : world) : option world :=
  match m_ps (ctl w) with
  | None => None
  | Some p =>
    let m := set_qpm (ctl w) (f_resetQP reg (m_qp (ctl w))) in                   (* 228-230 *)
    ps <- f_ensureUpdated F (wps w p) ;;                                         (* 233-235 *)
    m <- updateNr (wcon w) m ;;                                                  (* 238 *)
    let m := updateConstraintMatrixSize j ps m in                                (* 239 *)
    wc <- f_update_cons F ps (spC m) (wcon w) ;;                                 (* 240-242 *)
    wk <- f_update_costs F ps (spCost m) (wcost w) ;;                            (* 245-247 *)
    Some (World (upd (wps w) p ps) (ncon w) wc (hcon w) (ncost w) wk (hcost w) m)
  end.
(** src/LMPC.cpp 252-255: the [k]-th cost and the following ones are added to the objective *)
Fixpoint f_sum_costs (F : arith) (k : nat) (wk : nat -> cost) (l : list nat) (s : mx * vec Qc) : option (mx * vec Qc) :=
  match l with
  | [] => Some s
  | i :: t => s' <- f_add_cost F k (wk i) s ;; f_sum_costs F (S k) wk t s'
  end.
(** src/LMPC.cpp 250-280: makeQPForm *)
Definition f_makeQPForm (F : arith) (ps : psys) (w : world) : option qp :=
  let m := ctl w in
  let q := m_qp m in
  s <- f_sum_costs F 0 (wcost w) (spCost m) (qQ q, qc q) ;;
  let '(Q, c) := s in
  e <- stack_rows (fullUDim ps) (wcon w) (spEq m) (qAeq q, qbeq q, 0) ;;
  let '(Aeq, beq, _) := e in
  i <- stack_rows (fullUDim ps) (wcon w) (spIneq m) (qAineq q, qbineq q, 0) ;;
  let '(Ain, bin, _) := i in
  b <- stack_bounds (wcon w) (spB m) (qlb q, qub q, 0) ;;
  let '(lb, ub, _) := b in
  Some (QP Q c Ain bin Aeq beq lb ub).
(** src/InitialStateLMPC.cpp 80-84: the [k]-th cost and the following ones *)
Fixpoint f_is_sum_costs (F : arith) (ps : psys) (wk : nat -> cost) (k : nat) (l : list nat) (s : mx * vec Qc) : option (mx * vec Qc) :=
  match l with
  | [] => Some s
  | i :: t =>
    let xd := xDim ps in
    let fu := fullUDim ps in
    let '(Q, c) := s in
    require (fu <=? rows Q) && (fu <=? cols Q) && (xd <=? rows Q) ;;
    Q' <- f_addBlock F [k; 81; 4] Q (rows Q - fu) (cols Q - fu) fu fu (kQ (wk i)) ;;          (* 81 *)
    Q'' <- f_addBlock F [k; 82; 4] Q' 0 (cols Q' - fu) xd fu (kE (wk i)) ;;                   (* 82 *)
    t0 <- tail c fu ;;
    require Nat.eqb (vsize (kf (wk i))) fu ;;
    c' <- setSeg c (vsize c - fu) fu (Vec fu (fun a => F [a; k; 83; 4] [vget t0 a; vget (kf (wk i)) a] [])) ;; (* 83 *)
    f_is_sum_costs F ps wk (S k) t (Q'', c')
  end.
(** src/InitialStateLMPC.cpp 111-117 (see is_corner) *)
Definition f_is_corner (F : arith) (inv : mx -> mx) (xd fu : nat) (R Q : mx) : option mx :=
  require (fu <=? rows Q) && (fu <=? cols Q) && (xd <=? rows Q) && (xd <=? cols Q) ;;
  E <- block Q 0 (cols Q - fu) xd fu ;;
  Q1 <- setBlock Q (rows Q - fu) 0 fu xd (mtrans E) ;;                            (* 115 *)
  E1 <- block Q1 0 (cols Q1 - fu) xd fu ;;
  Quu <- block Q1 (rows Q1 - fu) (cols Q1 - fu) fu fu ;;
  eq <- f_mmul F [116; 4] E1 (inv Quu) ;;
  tl <- f_mmadd F [117; 4] eq (mtrans E1) R ;;
  setBlock Q1 0 0 xd xd tl.                                                       (* 116 *)
(** src/InitialStateLMPC.cpp 77-122: makeQPForm *)
Definition f_is_makeQPForm (F : arith) (inv : mx -> mx) (is : ist) (ps : psys) (w : world) : option qp :=
  let m := ctl w in
  let q := m_qp m in
  let xd := xDim ps in
  let fu := fullUDim ps in
  s <- f_is_sum_costs F ps (wcost w) 0 (spCost m) (qQ q, qc q) ;;
  let '(Q, c) := s in
  e <- is_stack_rows xd fu (wcon w) (spEq m) (qAeq q, qbeq q, 0) ;;
  let '(Aeq, beq, _) := e in
  i <- is_stack_rows xd fu (wcon w) (spIneq m) (qAineq q, qbineq q, 0) ;;
  let '(Ain, bin, _) := i in
  b <- stack_bounds (wcon w) (spB m) (qlb q, qub q, xd) ;;                        (* 105 *)
  let '(lb, ub, _) := b in
  Q' <- f_is_corner F inv xd fu (isR is) Q ;;
  c' <- setHead c xd (isr is) ;;                                                  (* 119 *)
  lb' <- setHead lb xd (isx0lb is) ;;                                             (* 120 *)
  ub' <- setHead ub xd (isx0ub is) ;;                                             (* 121 *)
  Some (QP Q' c' Ain bin Aeq beq lb' ub').
(** src/LMPC.cpp 84-87 *)
Definition f_build (F : arith) (reg : Qc) (e : senv) (w : world) : option world :=
  w1 <- f_lmpc_updateSystem F reg (s_junk e) w ;;
  match m_ps (ctl w1) with
  | None => None
  | Some p =>
    q <- (match m_is (ctl w1) with
          | None => f_makeQPForm F (wps w1 p) w1
          | Some is => f_is_makeQPForm F (s_inv e) is (wps w1 p) w1
          end) ;;
    Some (set_ctl w1 (set_qpm (ctl w1) q))
  end.
(** src/LMPC.cpp 282-286, src/InitialStateLMPC.cpp 124-128: updateResults *)
Definition f_updateResults (F : arith) (w : world) : option world :=
  match m_ps (ctl w) with
  | None => None
  | Some p =>
    let ps := wps w p in
    match m_is (ctl w) with
    | None =>
        let u := m_sol (ctl w) in
        x <- f_preview F ps (x0 ps) u ;;
        Some (set_ctl w (set_result (ctl w) x u))
    | Some _ =>
        u <- tail (m_sol (ctl w)) (fullUDim ps) ;;
        xi <- initialState w ;;
        x <- f_preview F ps xi u ;;
        Some (set_ctl w (set_result (ctl w) x u))
    end
  end.
(** src/LMPC.cpp 79-101: solve *)
Definition f_solve (F : arith) (reg : Qc) (e : senv) (w : world) : option (bool * world) :=
  w1 <- f_build F reg e w ;;                                                      (* 84-87 *)
  let m := ctl w1 in
  let '(ok, r) := s_qp e (vsize (qc (m_qp m))) (nrEq m) (nrIneq m) (m_qp m) in    (* 88, 91 *)
  let w2 := set_ctl w1 (set_times (set_sol m r) (Some (s_t2 e - s_t1 e)%Qc) (sabTime m)) in (* 92 *)
  let w3 := checkDelete w2 in                                                     (* 94 *)
  w4 <- (if ok then f_updateResults F w3 else Some w3) ;;                         (* 95-97 *)
  Some (ok, set_ctl w4 (set_times (ctl w4) (solveTime (ctl w4)) (Some (s_t3 e - s_t0 e)%Qc))). (* 99-100 *)
(** one call of the API: the other calls compute nothing (Controller.v) *)
Definition f_step (F : arith) (reg : Qc) (w : world) (o : op) : outcome world :=
  match o with
  | OPs p o => out_map (set_ps w p) (f_ps_step F (wps w p) o)
  | OSolve e => match f_solve F reg e w with Some (_, w') => Ok w' | None => UB end
  | _ => step w o
  end.
Fixpoint f_run (F : arith) (reg : Qc) (w : world) (h : list op) : option world :=
  match h with
  | [] => Some w
  | o :: t => match f_step F reg w o with Ok w' | Throw _ w' => f_run F reg w' t | UB => None end
  end.
