(** Controller.v -- model of LMPC (include/LMPC.h, src/LMPC.cpp) and InitialStateLMPC
    (include/InitialStateLMPC.h, src/InitialStateLMPC.cpp), in a world of shared preview systems,
    constraints and costs.  One controller; owners of constraints and costs other than this
    controller (user code, other controllers) are counted per object.  The QP solver, the matrix
    inverse and the clock are parameters of each call of solve. *)
From Verif Require Import Base Eigen Preview AutoSpan Constraints Costs.

(** include/LMPC.h 178-185: the problem handed to the solver *)
Record qp := QP {
  qQ : mx; qc : vec Qc;
  qAineq : mx; qbineq : vec ext;
  qAeq : mx; qbeq : vec ext;
  qlb : vec ext; qub : vec ext
}.

(** include/InitialStateLMPC.h: R_, r_, x0lb_, x0ub_ *)
Record ist := IST { isR : mx; isr : vec Qc; isx0lb : vec ext; isx0ub : vec ext }.

(** include/LMPC.h 156-190.  [m_is] tells InitialStateLMPC (with its fields) from LMPC;
    [m_ps = None] is the null pointer; shared pointers are identifiers of objects; [m_sol] is what
    SI_result() of the current solver returns; a timer never set is indeterminate ([None]). *)
Record lmpc := LMPC {
  m_is : option ist;
  m_ps : option nat;
  nrEq : nat; nrIneq : nat;
  spC : list nat; spEq : list nat; spIneq : list nat; spB : list nat;
  spCost : list nat;
  m_qp : qp;
  m_traj : vec Qc; m_ctrl : vec Qc;
  m_sol : vec Qc;
  solveTime : option Qc; sabTime : option Qc
}.

(** The objects: preview systems, constraints, costs (identifiers below [ncon], [ncost] are allocated),
    the numbers of outside owners, and the controller. *)
Record world := World {
  wps : nat -> psys;
  ncon : nat; wcon : nat -> constr; hcon : nat -> nat;
  ncost : nat; wcost : nat -> cost; hcost : nat -> nat;
  ctl : lmpc
}.

Definition upd {A} (f : nat -> A) (i : nat) (x : A) : nat -> A := fun k => if Nat.eqb k i then x else f k.
Definition set_ps (w : world) (p : nat) (s : psys) : world :=
  World (upd (wps w) p s) (ncon w) (wcon w) (hcon w) (ncost w) (wcost w) (hcost w) (ctl w).
Definition set_con (w : world) (i : nat) (c : constr) : world :=
  World (wps w) (ncon w) (upd (wcon w) i c) (hcon w) (ncost w) (wcost w) (hcost w) (ctl w).
Definition set_cost (w : world) (i : nat) (c : cost) : world :=
  World (wps w) (ncon w) (wcon w) (hcon w) (ncost w) (upd (wcost w) i c) (hcost w) (ctl w).
Definition set_hcon (w : world) (i n : nat) : world :=
  World (wps w) (ncon w) (wcon w) (upd (hcon w) i n) (ncost w) (wcost w) (hcost w) (ctl w).
Definition set_hcost (w : world) (i n : nat) : world :=
  World (wps w) (ncon w) (wcon w) (hcon w) (ncost w) (wcost w) (upd (hcost w) i n) (ctl w).
Definition set_ctl (w : world) (m : lmpc) : world :=
  World (wps w) (ncon w) (wcon w) (hcon w) (ncost w) (wcost w) (hcost w) m.
Definition set_qpm (m : lmpc) (q : qp) : lmpc :=
  LMPC (m_is m) (m_ps m) (nrEq m) (nrIneq m) (spC m) (spEq m) (spIneq m) (spB m) (spCost m) q
    (m_traj m) (m_ctrl m) (m_sol m) (solveTime m) (sabTime m).
Definition set_lists (m : lmpc) (ne ni : nat) (lc le li lb : list nat) : lmpc :=
  LMPC (m_is m) (m_ps m) ne ni lc le li lb (spCost m) (m_qp m)
    (m_traj m) (m_ctrl m) (m_sol m) (solveTime m) (sabTime m).
Definition set_costs (m : lmpc) (l : list nat) : lmpc :=
  LMPC (m_is m) (m_ps m) (nrEq m) (nrIneq m) (spC m) (spEq m) (spIneq m) (spB m) l (m_qp m)
    (m_traj m) (m_ctrl m) (m_sol m) (solveTime m) (sabTime m).
Definition set_mps (m : lmpc) (p : nat) : lmpc :=
  LMPC (m_is m) (Some p) (nrEq m) (nrIneq m) (spC m) (spEq m) (spIneq m) (spB m) (spCost m) (m_qp m)
    (m_traj m) (m_ctrl m) (m_sol m) (solveTime m) (sabTime m).
Definition set_is (m : lmpc) (s : option ist) : lmpc :=
  LMPC s (m_ps m) (nrEq m) (nrIneq m) (spC m) (spEq m) (spIneq m) (spB m) (spCost m) (m_qp m)
    (m_traj m) (m_ctrl m) (m_sol m) (solveTime m) (sabTime m).
Definition set_sol (m : lmpc) (r : vec Qc) : lmpc :=
  LMPC (m_is m) (m_ps m) (nrEq m) (nrIneq m) (spC m) (spEq m) (spIneq m) (spB m) (spCost m) (m_qp m)
    (m_traj m) (m_ctrl m) r (solveTime m) (sabTime m).
Definition set_result (m : lmpc) (x u : vec Qc) : lmpc :=
  LMPC (m_is m) (m_ps m) (nrEq m) (nrIneq m) (spC m) (spEq m) (spIneq m) (spB m) (spCost m) (m_qp m)
    x u (m_sol m) (solveTime m) (sabTime m).
Definition set_times (m : lmpc) (a b : option Qc) : lmpc :=
  LMPC (m_is m) (m_ps m) (nrEq m) (nrIneq m) (spC m) (spEq m) (spIneq m) (spB m) (spCost m) (m_qp m)
    (m_traj m) (m_ctrl m) (m_sol m) a b.

(** ** Construction and initializeController *)

Definition qp_empty : qp := QP mempty qempty mempty eempty mempty eempty eempty eempty.
(** src/LMPC.cpp 15-19, 50-54: LMPC(flag); the members without initializer are default constructed.
    [r] is what SI_result() of the new solver returns before any solve. *)
Definition lmpc_default (s : option ist) (r : vec Qc) : lmpc :=
  LMPC s None 0 0 [] [] [] [] [] qp_empty qempty qempty r None None.

(** -DBL_MAX, +DBL_MAX *)
Definition no_lower : ext := Fin (- DBL_MAX)%Qc.
Definition no_upper : ext := Fin DBL_MAX.

(** number of decision variables: src/LMPC.cpp 203-222 (fullUDim), src/InitialStateLMPC.cpp 54, 65, 71
    (xDim + fullUDim) *)
Definition optSize (m : lmpc) (ps : psys) : nat :=
  match m_is m with None => fullUDim ps | Some _ => xDim ps + fullUDim ps end.

(** src/LMPC.cpp 199-209, src/InitialStateLMPC.cpp 52-61: clearConstraintMatrices.
    A matrix resized to 0 rows has no entries; setConstant(n, x) resizes and fills. *)
Definition clearConstraintMatrices (ps : psys) (m : lmpc) : option lmpc :=
  let n := optSize m ps in
  require fits_int n ;;
  Some (set_qpm m (QP (qQ (m_qp m)) (qc (m_qp m)) (mzero 0 n) eempty (mzero 0 n) eempty
                      (vconst n no_lower) (vconst n no_upper))).

(** src/LMPC.cpp 211-215, src/InitialStateLMPC.cpp 63-67: updateQPMatrixSize *)
Definition updateQPMatrixSize (j : junk) (ps : psys) (m : lmpc) : lmpc :=
  let n := optSize m ps in
  let q := m_qp m in
  set_qpm m (QP (mresize (jmat j 0) (qQ q) n n) (vresize (jvec j 1) (qc q) n)
                (qAineq q) (qbineq q) (qAeq q) (qbeq q) (qlb q) (qub q)).

(** src/LMPC.cpp 72-77: initializeController (costs and constraints stay registered) *)
Definition initializeController (j : junk) (w : world) (p : nat) : option world :=
  m <- clearConstraintMatrices (wps w p) (set_mps (ctl w) p) ;;
  Some (set_ctl w (updateQPMatrixSize j (wps w p) m)).

(** the four constructors: src/LMPC.cpp 50-60, src/InitialStateLMPC.cpp 15-28.
    The previous controller, if any, is destroyed (its shared pointers with it). *)
Inductive ctor := CLMPC | CLMPCps (p : nat) | CIS | CISps (p : nat).
Definition fin_vec (v : vec Qc) : vec ext := Vec (vsize v) (fun i => Fin (vget v i)).
Definition construct (j : junk) (k : ctor) (r : vec Qc) (w : world) : option world :=
  match k with
  | CLMPC => Some (set_ctl w (lmpc_default None r))
  | CLMPCps p => initializeController j (set_ctl w (lmpc_default None r)) p
  | CIS => Some (set_ctl w (lmpc_default (Some (IST mempty qempty eempty eempty)) r))
  | CISps p =>
      let ps := wps w p in
      initializeController j
        (set_ctl w (lmpc_default (Some (IST (mzero (xDim ps) (xDim ps)) (vconst (xDim ps) 0%Qc)
                                            (fin_vec (x0 ps)) (fin_vec (x0 ps)))) r)) p
  end.

(** ** Registration *)

(** src/LMPC.cpp 118-122: addCost; an exception leaves before line 121 *)
Definition addCost (j : junk) (w : world) (i : nat) : outcome world :=
  match m_ps (ctl w) with
  | None => UB                                                                   (* 120: *nullptr *)
  | Some p =>
    match initializeCost j (wps w p) (wcost w i) with
    | UB => UB
    | Throw e c => Throw e (set_cost w i c)
    | Ok c => let w := set_cost w i c in
              Ok (set_ctl w (set_costs (ctl w) (spCost (ctl w) ++ [i])))
    end
  end.

(** src/LMPC.cpp 173-197: addConstraintByType *)
Definition addConstraintByType (w : world) (i : nat) : option world :=
  let m := ctl w in
  let c := wcon w i in
  match constraintType c with
  | EqualityConstraint =>
      require fits_int (nrEq m + nrConstr c) ;;
      Some (set_ctl w (set_lists m (nrEq m + nrConstr c) (nrIneq m) (spC m ++ [i]) (spEq m ++ [i]) (spIneq m) (spB m)))
  | InequalityConstraint =>
      require fits_int (nrIneq m + nrConstr c) ;;
      Some (set_ctl w (set_lists m (nrEq m) (nrIneq m + nrConstr c) (spC m ++ [i]) (spEq m) (spIneq m ++ [i]) (spB m)))
  | BoundConstraint =>
      Some (set_ctl w (set_lists m (nrEq m) (nrIneq m) (spC m ++ [i]) (spEq m) (spIneq m) (spB m ++ [i])))
  end.

(** src/LMPC.cpp 124-128: addConstraint *)
Definition addConstraint (j : junk) (w : world) (i : nat) : outcome world :=
  match m_ps (ctl w) with
  | None => UB
  | Some p =>
    match initializeConstraint j (wps w p) (wcon w i) with
    | UB => UB
    | Throw e c => Throw e (set_con w i c)
    | Ok c => of_opt (addConstraintByType (set_con w i c) i)
    end
  end.

(** src/LMPC.cpp 130-133: clearCosts *)
Definition clearCosts (w : world) : world := set_ctl w (set_costs (ctl w) []).

(** src/LMPC.cpp 135-139 (and 36-44): clearConstraints *)
Definition clearConstraints (w : world) : option world :=
  match m_ps (ctl w) with
  | None => None
  | Some p =>
    m <- clearConstraintMatrices (wps w p) (set_lists (ctl w) 0 0 [] [] [] []) ;;
    Some (set_ctl w m)
  end.

(** std::find then erase: the first occurrence; [None] when the iterator is past the end *)
Fixpoint erase_first (i : nat) (l : list nat) : option (list nat) :=
  match l with
  | [] => None
  | x :: t => if Nat.eqb x i then Some t else t' <- erase_first i t ;; Some (x :: t')
  end.

(** src/LMPC.cpp 141-147: removeCost *)
Definition removeCost (w : world) (i : nat) : world :=
  match erase_first i (spCost (ctl w)) with
  | None => w
  | Some l => set_ctl w (set_costs (ctl w) l)
  end.

(** src/LMPC.cpp 149-167: removeConstraint; lines 156, 159 and 162 erase without testing the result of find *)
Definition removeConstraint (w : world) (i : nat) : option world :=
  let m := ctl w in
  match erase_first i (spC m) with
  | None => Some w
  | Some lc =>
    match constraintType (wcon w i) with
    | EqualityConstraint =>
        l <- erase_first i (spEq m) ;;
        Some (set_ctl w (set_lists m (nrEq m) (nrIneq m) lc l (spIneq m) (spB m)))
    | InequalityConstraint =>
        l <- erase_first i (spIneq m) ;;
        Some (set_ctl w (set_lists m (nrEq m) (nrIneq m) lc (spEq m) l (spB m)))
    | BoundConstraint =>
        l <- erase_first i (spB m) ;;
        Some (set_ctl w (set_lists m (nrEq m) (nrIneq m) lc (spEq m) (spIneq m) l))
    end
  end.

(** ** solve *)

(** src/LMPC.cpp 21-34: updateNr; the running sums are ints *)
Definition total_rows (wc : nat -> constr) (l : list nat) : nat :=
  fold_right (fun i a => nrConstr (wc i) + a) 0 l.
Definition updateNr (wc : nat -> constr) (m : lmpc) : option lmpc :=
  let ne := total_rows wc (spEq m) in
  let ni := total_rows wc (spIneq m) in
  require fits_int ne && fits_int ni ;;
  Some (set_lists m ne ni (spC m) (spEq m) (spIneq m) (spB m)).

(** src/LMPC.cpp 217-223, src/InitialStateLMPC.cpp 69-75: updateConstraintMatrixSize *)
Definition updateConstraintMatrixSize (j : junk) (ps : psys) (m : lmpc) : lmpc :=
  let n := optSize m ps in
  let q := m_qp m in
  set_qpm m (QP (qQ q) (qc q)
    (mresize (jmat j 2) (qAineq q) (nrIneq m) n) (vresize (jext j 3) (qbineq q) (nrIneq m))
    (mresize (jmat j 0) (qAeq q) (nrEq m) n) (vresize (jext j 1) (qbeq q) (nrEq m))
    (qlb q) (qub q)).

(** src/LMPC.cpp 240-242, 245-247: update every registered constraint, then every registered cost *)
Definition update_cons (ps : psys) (l : list nat) (wc : nat -> constr) : option (nat -> constr) :=
  for_list l (fun i wc => c <- c_update ps (wc i) ;; Some (upd wc i c)) wc.
Definition update_costs (ps : psys) (l : list nat) (wk : nat -> cost) : option (nat -> cost) :=
  for_list l (fun i wk => c <- k_update ps (wk i) ;; Some (upd wk i c)) wk.

(** src/LMPC.cpp 225-248: updateSystem *)
Definition resetQP (q : qp) : qp :=
  QP (mscal q1em6 (mident (rows (qQ q)) (cols (qQ q)))) (vconst (vsize (qc q)) 0%Qc)
     (qAineq q) (qbineq q) (qAeq q) (qbeq q) (qlb q) (qub q).
Definition lmpc_updateSystem (j : junk) (w : world) : option world :=
  match m_ps (ctl w) with
  | None => None
  | Some p =>
    let m := set_qpm (ctl w) (resetQP (m_qp (ctl w))) in                         (* 228-230 *)
    ps <- ensureUpdated (wps w p) ;;                                             (* 233-235 *)
    m <- updateNr (wcon w) m ;;                                                  (* 238 *)
    let m := updateConstraintMatrixSize j ps m in                                (* 239 *)
    wc <- update_cons ps (spC m) (wcon w) ;;                                     (* 240-242 *)
    wk <- update_costs ps (spCost m) (wcost w) ;;                                (* 245-247 *)
    Some (World (upd (wps w) p ps) (ncon w) wc (hcon w) (ncost w) wk (hcost w) m)
  end.

(** one stack of rows: blocks [X_i] of [nr_i] rows at the running line (src/LMPC.cpp 257-262, 266-271) *)
Definition stack_rows (fu : nat) (wc : nat -> constr) (l : list nat) (s : mx * vec ext * nat)
  : option (mx * vec ext * nat) :=
  for_list l (fun i s =>
    let '(A, b, n) := s in
    let c := wc i in
    A' <- setBlock A n 0 (nrConstr c) fu (cA c) ;;
    b' <- setSeg b n (nrConstr c) (cb c) ;;
    Some (A', b', n + nrConstr c)) s.

(** src/LMPC.cpp 275-279, src/InitialStateLMPC.cpp 104-108 *)
Definition stack_bounds (wc : nat -> constr) (l : list nat) (s : vec ext * vec ext * nat)
  : option (vec ext * vec ext * nat) :=
  for_list l (fun i s =>
    let '(lb, ub, n) := s in
    let c := wc i in
    lb' <- setSeg lb n (nrConstr c) (clb c) ;;
    ub' <- setSeg ub n (nrConstr c) (cub c) ;;
    Some (lb', ub', n + nrConstr c)) s.

(** src/LMPC.cpp 250-280: makeQPForm *)
Definition sum_costs (wk : nat -> cost) (l : list nat) (s : mx * vec Qc) : option (mx * vec Qc) :=
  for_list l (fun i s =>
    let '(Q, c) := s in
    Q' <- madd Q (kQ (wk i)) ;;
    c' <- vadd c (kc (wk i)) ;;
    Some (Q', c')) s.
Definition lmpc_makeQPForm (ps : psys) (w : world) : option qp :=
  let m := ctl w in
  let q := m_qp m in
  s <- sum_costs (wcost w) (spCost m) (qQ q, qc q) ;;
  let '(Q, c) := s in
  e <- stack_rows (fullUDim ps) (wcon w) (spEq m) (qAeq q, qbeq q, 0) ;;
  let '(Aeq, beq, _) := e in
  i <- stack_rows (fullUDim ps) (wcon w) (spIneq m) (qAineq q, qbineq q, 0) ;;
  let '(Ain, bin, _) := i in
  b <- stack_bounds (wcon w) (spB m) (qlb q, qub q, 0) ;;
  let '(lb, ub, _) := b in
  Some (QP Q c Ain bin Aeq beq lb ub).

(** the same for InitialStateLMPC: src/InitialStateLMPC.cpp 80-84 *)
Definition is_sum_costs (ps : psys) (wk : nat -> cost) (l : list nat) (s : mx * vec Qc) : option (mx * vec Qc) :=
  let xd := xDim ps in
  let fu := fullUDim ps in
  for_list l (fun i s =>
    let '(Q, c) := s in
    require (fu <=? rows Q) && (fu <=? cols Q) && (xd <=? rows Q) ;;
    Q' <- addBlock Q (rows Q - fu) (cols Q - fu) fu fu (kQ (wk i)) ;;             (* 81 *)
    Q'' <- addBlock Q' 0 (cols Q' - fu) xd fu (kE (wk i)) ;;                      (* 82 *)
    t <- tail c fu ;;
    s <- vadd t (kf (wk i)) ;;
    c' <- setSeg c (vsize c - fu) fu s ;;                                         (* 83 *)
    Some (Q'', c')) s.
(** src/InitialStateLMPC.cpp 88-93, 97-102 *)
Definition is_stack_rows (xd fu : nat) (wc : nat -> constr) (l : list nat) (s : mx * vec ext * nat)
  : option (mx * vec ext * nat) :=
  for_list l (fun i s =>
    let '(A, b, n) := s in
    let c := wc i in
    A' <- setBlock A n 0 (nrConstr c) xd (cY c) ;;
    A'' <- setBlock A' n xd (nrConstr c) fu (cA c) ;;
    b' <- setSeg b n (nrConstr c) (cz c) ;;
    Some (A'', b', n + nrConstr c)) s.
(** src/InitialStateLMPC.cpp 111-117: the first block row and column of Q; [inv] is Q.inverse().
    The proxies E and Q of lines 113-114 are read when used.  Line 116 ([noalias]) reads them all
    before writing: they do not overlap the destination when Q has xDim + fullUDim rows and columns. *)
Definition is_corner (inv : mx -> mx) (xd fu : nat) (R Q : mx) : option mx :=
  require (fu <=? rows Q) && (fu <=? cols Q) && (xd <=? rows Q) && (xd <=? cols Q) ;;
  E <- block Q 0 (cols Q - fu) xd fu ;;
  Q1 <- setBlock Q (rows Q - fu) 0 fu xd (mtrans E) ;;                            (* 115 *)
  E1 <- block Q1 0 (cols Q1 - fu) xd fu ;;
  Quu <- block Q1 (rows Q1 - fu) (cols Q1 - fu) fu fu ;;
  eq <- mmul E1 (inv Quu) ;;
  eqe <- mmul eq (mtrans E1) ;;
  tl <- madd R eqe ;;
  setBlock Q1 0 0 xd xd tl.                                                       (* 116 *)
(** v.head(n) = e *)
Definition setHead {T} (v : vec T) (n : nat) (e : vec T) : option (vec T) := setSeg v 0 n e.
(** src/InitialStateLMPC.cpp 77-122: makeQPForm *)
Definition is_makeQPForm (inv : mx -> mx) (is : ist) (ps : psys) (w : world) : option qp :=
  let m := ctl w in
  let q := m_qp m in
  let xd := xDim ps in
  let fu := fullUDim ps in
  s <- is_sum_costs ps (wcost w) (spCost m) (qQ q, qc q) ;;
  let '(Q, c) := s in
  e <- is_stack_rows xd fu (wcon w) (spEq m) (qAeq q, qbeq q, 0) ;;
  let '(Aeq, beq, _) := e in
  i <- is_stack_rows xd fu (wcon w) (spIneq m) (qAineq q, qbineq q, 0) ;;
  let '(Ain, bin, _) := i in
  b <- stack_bounds (wcon w) (spB m) (qlb q, qub q, xd) ;;                        (* 105 *)
  let '(lb, ub, _) := b in
  Q' <- is_corner inv xd fu (isR is) Q ;;
  c' <- setHead c xd (isr is) ;;                                                  (* 119 *)
  lb' <- setHead lb xd (isx0lb is) ;;                                             (* 120 *)
  ub' <- setHead ub xd (isx0ub is) ;;                                             (* 121 *)
  Some (QP Q' c' Ain bin Aeq beq lb' ub').

(** what one call of solve gets from outside: indeterminate memory, Eigen's inverse, the solver
    (numbers of variables, equality and inequality rows announced by SI_problem, and the problem
    passed to SI_solve; it answers success or not, and the vector SI_result() returns from then on),
    four readings of the clock *)
Record senv := SEnv {
  s_junk : junk;
  s_inv : mx -> mx;
  s_qp : nat -> nat -> nat -> qp -> bool * vec Qc;
  s_t0 : Qc; s_t1 : Qc; s_t2 : Qc; s_t3 : Qc
}.

(** the building part of solve (src/LMPC.cpp 84-87): the world with the problem in place *)
Definition build (e : senv) (w : world) : option world :=
  w1 <- lmpc_updateSystem (s_junk e) w ;;
  match m_ps (ctl w1) with
  | None => None
  | Some p =>
    q <- (match m_is (ctl w1) with
          | None => lmpc_makeQPForm (wps w1 p) w1
          | Some is => is_makeQPForm (s_inv e) is (wps w1 p) w1
          end) ;;
    Some (set_ctl w1 (set_qpm (ctl w1) q))
  end.

(** shared_ptr::use_count(): outside owners plus the entries of the controller's lists *)
Definition cnt (i : nat) (l : list nat) : nat := count_occ Nat.eq_dec l i.
Definition use_con (h : nat -> nat) (lc le li lb : list nat) (i : nat) : nat :=
  h i + cnt i lc + cnt i le + cnt i li + cnt i lb.

(** src/LMPC.cpp 290-300: the lambda [check]; [uc l i] is the use count of [i] when the list holds [l] *)
Fixpoint check (uc : list nat -> nat -> nat) (lim : nat) (kept todo : list nat) : list nat :=
  match todo with
  | [] => kept
  | i :: t => if uc (kept ++ i :: t) i <=? lim then check uc lim kept t
              else check uc lim (kept ++ [i]) t
  end.

(** src/LMPC.cpp 288-307: checkDeleteCostsAndConstraints *)
Definition checkDelete (w : world) : world :=
  let m := ctl w in
  let h := hcon w in
  let lc := check (fun l => use_con h l (spEq m) (spIneq m) (spB m)) 2 [] (spC m) in
  let le := check (fun l => use_con h lc l (spIneq m) (spB m)) 2 [] (spEq m) in
  let li := check (fun l => use_con h lc le l (spB m)) 2 [] (spIneq m) in
  let lb := check (fun l => use_con h lc le li l) 2 [] (spB m) in
  let lk := check (fun l i => hcost w i + cnt i l) 1 [] (spCost m) in
  set_ctl w (set_costs (set_lists m (nrEq m) (nrIneq m) lc le li lb) lk).

(** include/InitialStateLMPC.h, src/InitialStateLMPC.cpp 30-33: initialState() = SI_result().head(xDim) *)
Definition initialState (w : world) : option (vec Qc) :=
  match m_ps (ctl w) with
  | None => None
  | Some p => seg (m_sol (ctl w)) 0 (xDim (wps w p))
  end.

(** src/LMPC.cpp 282-286, src/InitialStateLMPC.cpp 124-128: updateResults *)
Definition updateResults (w : world) : option world :=
  match m_ps (ctl w) with
  | None => None
  | Some p =>
    let ps := wps w p in
    match m_is (ctl w) with
    | None =>
        let u := m_sol (ctl w) in
        x <- preview ps (x0 ps) u ;;
        Some (set_ctl w (set_result (ctl w) x u))
    | Some _ =>
        u <- tail (m_sol (ctl w)) (fullUDim ps) ;;
        xi <- initialState w ;;
        x <- preview ps xi u ;;
        Some (set_ctl w (set_result (ctl w) x u))
    end
  end.

(** src/LMPC.cpp 79-101: solve *)
Definition solve (e : senv) (w : world) : option (bool * world) :=
  w1 <- build e w ;;                                                              (* 84-87 *)
  let m := ctl w1 in
  let '(ok, r) := s_qp e (vsize (qc (m_qp m))) (nrEq m) (nrIneq m) (m_qp m) in    (* 88, 91 *)
  let w2 := set_ctl w1 (set_times (set_sol m r) (Some (s_t2 e - s_t1 e)%Qc) (sabTime m)) in (* 92 *)
  let w3 := checkDelete w2 in                                                     (* 94 *)
  w4 <- (if ok then updateResults w3 else Some w3) ;;                             (* 95-97 *)
  Some (ok, set_ctl w4 (set_times (ctl w4) (solveTime (ctl w4)) (Some (s_t3 e - s_t0 e)%Qc))). (* 99-100 *)

(** ** Histories of calls *)

(** the arguments of the constructors of constraints and costs *)
Inductive con_data :=
| DTraj (E : mx) (f : vec ext) (ineq : bool)
| DCtrl (G : mx) (f : vec ext) (ineq : bool)
| DMixed (E G : mx) (f : vec ext) (ineq : bool)
| DTrajB (lower upper : vec ext)
| DCtrlB (lower upper : vec ext).
Definition new_con (d : con_data) : constr :=
  match d with
  | DTraj E f i => mkTraj E f i
  | DCtrl G f i => mkCtrl G f i
  | DMixed E G f i => mkMixed E G f i
  | DTrajB lo up => mkTrajB lo up
  | DCtrlB lo up => mkCtrlB lo up
  end.
Inductive cost_data :=
| DTrajC (M : mx) (p : vec Qc)
| DTargetC (M : mx) (p : vec Qc)
| DCtrlC (N : mx) (p : vec Qc)
| DMixedC (M N : mx) (p : vec Qc).
Definition new_cost (d : cost_data) : cost :=
  match d with
  | DTrajC M p => mkTrajC M p
  | DTargetC M p => mkTargetC M p
  | DCtrlC N p => mkCtrlC N p
  | DMixedC M N p => mkMixedC M N p
  end.

(** one API call.  Preview systems start default constructed.  A new constraint or cost gets the next
    identifier and one outside owner. *)
Inductive op :=
| OPs (p : nat) (o : ps_op)
| ONewCon (d : con_data) | OHoldCon (i : nat) | OReleaseCon (i : nat) | OSpanCon (j : junk) (i : nat)
| ONewCost (d : cost_data) | OHoldCost (i : nat) | OReleaseCost (i : nat) | OSpanCost (j : junk) (i : nat)
| OWeights (i : nat) (v : vec Qc) | OWeight (i : nat) (x : Qc)
| OConstruct (j : junk) (k : ctor) (r : vec Qc)
| OInitController (j : junk) (p : nat)
| OAddCost (j : junk) (i : nat) | OAddCon (j : junk) (i : nat)
| ORemoveCost (i : nat) | ORemoveCon (i : nat)
| OClearCosts | OClearCons
| OSolver (r : vec Qc)
| OSolve (e : senv)
| OResetX0Cost (R : mx) (r : vec Qc) | OResetX0Bounds (lb ub : vec ext).

(** an operation on an object needs an owner to call it: otherwise it cannot be written, and is skipped *)
Definition with_con (w : world) (i : nat) (f : world -> outcome world) : outcome world :=
  if 0 <? hcon w i then f w else Ok w.
Definition with_cost (w : world) (i : nat) (f : world -> outcome world) : outcome world :=
  if 0 <? hcost w i then f w else Ok w.

Definition out_map {A B} (f : A -> B) (o : outcome A) : outcome B :=
  match o with Ok a => Ok (f a) | Throw e a => Throw e (f a) | UB => UB end.

(** src/InitialStateLMPC.cpp 35-46: resetInitialStateCost, resetInitialStateBounds (members of InitialStateLMPC only) *)
Definition resetX0Cost (m : lmpc) (R : mx) (r : vec Qc) : lmpc :=
  match m_is m with None => m | Some s => set_is m (Some (IST R r (isx0lb s) (isx0ub s))) end.
Definition resetX0Bounds (m : lmpc) (lb ub : vec ext) : lmpc :=
  match m_is m with None => m | Some s => set_is m (Some (IST (isR s) (isr s) lb ub)) end.

Definition step (w : world) (o : op) : outcome world :=
  match o with
  | OPs p o => out_map (set_ps w p) (ps_step (wps w p) o)
  | ONewCon d =>
      Ok (World (wps w) (S (ncon w)) (upd (wcon w) (ncon w) (new_con d)) (upd (hcon w) (ncon w) 1)
            (ncost w) (wcost w) (hcost w) (ctl w))
  | OHoldCon i => with_con w i (fun w => Ok (set_hcon w i (hcon w i + 1)))
  | OReleaseCon i => with_con w i (fun w => Ok (set_hcon w i (hcon w i - 1)))
  | OSpanCon j i => with_con w i (fun w => out_map (set_con w i) (c_autoSpan j (wcon w i)))
  | ONewCost d =>
      Ok (World (wps w) (ncon w) (wcon w) (hcon w)
            (S (ncost w)) (upd (wcost w) (ncost w) (new_cost d)) (upd (hcost w) (ncost w) 1) (ctl w))
  | OHoldCost i => with_cost w i (fun w => Ok (set_hcost w i (hcost w i + 1)))
  | OReleaseCost i => with_cost w i (fun w => Ok (set_hcost w i (hcost w i - 1)))
  | OSpanCost j i => with_cost w i (fun w => out_map (set_cost w i) (k_autoSpan j (wcost w i)))
  | OWeights i v => with_cost w i (fun w => out_map (set_cost w i) (k_weights (wcost w i) v))
  | OWeight i x => with_cost w i (fun w => Ok (set_cost w i (k_weight (wcost w i) x)))
  | OConstruct j k r => of_opt (construct j k r w)
  | OInitController j p => of_opt (initializeController j w p)
  | OAddCost j i => with_cost w i (fun w => addCost j w i)
  | OAddCon j i => with_con w i (fun w => addConstraint j w i)
  | ORemoveCost i => with_cost w i (fun w => Ok (removeCost w i))
  | ORemoveCon i => with_con w i (fun w => of_opt (removeConstraint w i))
  | OClearCosts => Ok (clearCosts w)
  | OClearCons => of_opt (clearConstraints w)
  | OSolver r => Ok (set_ctl w (set_sol (ctl w) r))
  | OSolve e => match solve e w with Some (_, w') => Ok w' | None => UB end
  | OResetX0Cost R r => Ok (set_ctl w (resetX0Cost (ctl w) R r))
  | OResetX0Bounds lb ub => Ok (set_ctl w (resetX0Bounds (ctl w) lb ub))
  end.

(** exceptions are caught and everything is used further; [None] is undefined behaviour *)
Fixpoint run (w : world) (h : list op) : option world :=
  match h with
  | [] => Some w
  | o :: t => match step w o with Ok w' | Throw _ w' => run w' t | UB => None end
  end.

(** before the first call: no constraint or cost, default preview systems, a controller LMPC(flag) *)
Definition world0 : world :=
  World (fun _ => ps_default) 0 (fun _ => mkCtrlB eempty eempty) (fun _ => 0)
    0 (fun _ => mkCtrlC mempty qempty) (fun _ => 0) (lmpc_default None qempty).
