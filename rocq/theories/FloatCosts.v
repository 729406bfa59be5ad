(** FloatCosts.v -- the cost functions and the objective of the QP computed with rounded arithmetic (see Floats.v: one call of
    [F] for each sum of products, the list of naturals tells the place). *)
From Verif Require Import Base Eigen Preview AutoSpan Constraints Costs Floats.

(** a * b.asDiagonal() is an expression: each of its entries is one product, rounded (Eigen: h.transpose() * weights_.asDiagonal()) *)
Definition f_times (F : arith) (t : list nat) (a b : Qc) : Qc := F t [] [(a, b)].
(** what `=` and `+=` add to *)
Definition old_m (acc : option mx) (i j : nat) : list Qc := match acc with Some Q => [at_ Q i j] | None => [] end.
Definition old_v (acc : option (vec Qc)) (j : nat) : list Qc := match acc with Some v => [vget v j] | None => [] end.
(** acc += h.transpose() * weights_.asDiagonal() * tmp, or = without [acc]  (costFunctions.cpp 67, 69, 75, 77, 103, 105, 142,
    148, 199, 201, 208, 210); with h = tmp this is Q *)
Definition f_hwt (F : arith) (t : list nat) (acc : option mx) (w : vec Qc) (h tmp : mx) : option mx :=
  require Nat.eqb (rows h) (vsize w) ;; require Nat.eqb (rows h) (rows tmp) ;;
  require match acc with Some Q => Nat.eqb (rows Q) (cols h) && Nat.eqb (cols Q) (cols tmp) | None => true end ;;
  Some (Mx (cols h) (cols tmp) (fun i j =>
    F (i :: j :: t) (old_m acc i j)
      (prods (rows h) (fun r => f_times F (r :: i :: j :: t) (at_ h r i) (vget w r)) (fun r => at_ tmp r j)))).
(** acc += g.transpose() * weights_.asDiagonal() * tmp  (70, 78, 106, 145, 149, 202, 211) *)
Definition f_gwt (F : arith) (t : list nat) (acc : option (vec Qc)) (w g : vec Qc) (tmp : mx) : option (vec Qc) :=
  require Nat.eqb (vsize g) (vsize w) ;; require Nat.eqb (vsize g) (rows tmp) ;;
  require match acc with Some v => Nat.eqb (vsize v) (cols tmp) | None => true end ;;
  Some (Vec (cols tmp) (fun j =>
    F (j :: t) (old_v acc j)
      (prods (vsize g) (fun r => f_times F (r :: j :: t) (vget g r) (vget w r)) (fun r => at_ tmp r j)))).
(** M * xi - p  (70, 78, 106, 202, 211) *)
Definition f_resid (F : arith) (t : list nat) (M : mx) (xi p : vec Qc) : option (vec Qc) :=
  require Nat.eqb (cols M) (vsize xi) ;; require Nat.eqb (rows M) (vsize p) ;;
  Some (Vec (rows M) (fun i => F (i :: t) [(- vget p i)%Qc] (prods (cols M) (at_ M i) (vget xi)))).
(** c_ = E_.transpose() * ps.x0 + f_  (71, 80, 107, 203), or += (213) *)
Definition f_lin_of (F : arith) (t : list nat) (acc : option (vec Qc)) (ps : psys) (E : mx) (f : vec Qc) : option (vec Qc) :=
  require Nat.eqb (rows E) (vsize (x0 ps)) ;; require Nat.eqb (cols E) (vsize f) ;;
  require match acc with Some v => Nat.eqb (vsize v) (cols E) | None => true end ;;
  Some (Vec (cols E) (fun j =>
    F (j :: t) (old_v acc j ++ [vget f j]) (prods (rows E) (fun i => at_ E i j) (vget (x0 ps))))).
(** m.block(r, c, nr, nc) += e  (207) *)
Definition f_addBlock (F : arith) (t : list nat) (m : mx) (r c nr nc : nat) (e : mx) : option mx :=
  b <- block m r c nr nc ;;
  require Nat.eqb (rows e) nr && Nat.eqb (cols e) nc ;;
  setBlock m r c nr nc (Mx nr nc (fun i j => F (i :: j :: t) [at_ b i j; at_ e i j] [])).

(** costFunctions.cpp 74-78 *)
Definition f_trajC_step (F : arith) (ps : psys) (M : mx) (p w : vec Qc) (i : nat) (s : mx * mx * vec Qc)
  : option (mx * mx * vec Qc) :=
  let '(Q, E, f) := s in
  psi <- block (psPsi ps) (i * xDim ps) 0 (xDim ps) (fullUDim ps) ;;
  t <- f_mmul F [i; 74; 2] M psi ;;                                               (* 74 *)
  Q' <- f_hwt F [i; 75; 2] (Some Q) w t t ;;                                      (* 75 *)
  phi <- block (psPhi ps) (i * xDim ps) 0 (xDim ps) (xDim ps) ;;
  h <- f_mmul F [i; 76; 2] M phi ;;
  E' <- f_hwt F [i; 77; 2] (Some E) w h t ;;                                      (* 77 *)
  xi <- seg (psxi ps) (i * xDim ps) (xDim ps) ;;
  g <- f_resid F [i; 79; 2] M xi p ;;
  f' <- f_gwt F [i; 78; 2] (Some f) w g t ;;                                      (* 78 *)
  Some (Q', E', f').
(** costFunctions.cpp 63-82 *)
Definition f_trajC_update (F : arith) (ps : psys) (c : cost) : option cost :=
  if kfull c then
    t <- f_mmul F [66; 2] (kM c) (psPsi ps) ;;                                    (* 66 *)
    Q <- f_hwt F [67; 2] None (kw c) t t ;;                                       (* 67 *)
    h <- f_mmul F [68; 2] (kM c) (psPhi ps) ;;
    E <- f_hwt F [69; 2] None (kw c) h t ;;                                       (* 69 *)
    g <- f_resid F [72; 2] (kM c) (psxi ps) (kp c) ;;
    f <- f_gwt F [70; 2] None (kw c) g t ;;                                       (* 70 *)
    cv <- f_lin_of F [71; 2] None ps E f ;;                                       (* 71 *)
    Some (set_qp c Q cv E f)
  else
    s <- for_ 0 (nrXStep ps) (f_trajC_step F ps (kM c) (kp c) (kw c)) (kQ c, kE c, kf c) ;;
    let '(Q, E, f) := s in
    cv <- f_lin_of F [80; 2] None ps E f ;;                                       (* 80 *)
    Some (set_qp c Q cv E f).
(** costFunctions.cpp 100-108 *)
Definition f_targetC_update (F : arith) (ps : psys) (c : cost) : option cost :=
  psi <- bottomRows (psPsi ps) (xDim ps) ;;
  t <- f_mmul F [102; 2] (kM c) psi ;;                                            (* 102 *)
  Q <- f_hwt F [103; 2] None (kw c) t t ;;                                        (* 103 *)
  phi <- bottomRows (psPhi ps) (xDim ps) ;;
  h <- f_mmul F [104; 2] (kM c) phi ;;
  E <- f_hwt F [105; 2] None (kw c) h t ;;                                        (* 105 *)
  xi <- tail (psxi ps) (xDim ps) ;;
  g <- f_resid F [108; 2] (kM c) xi (kp c) ;;
  f <- f_gwt F [106; 2] None (kw c) g t ;;                                        (* 106 *)
  cv <- f_lin_of F [107; 2] None ps E f ;;                                        (* 107 *)
  Some (set_qp c Q cv E f).
(** costFunctions.cpp 139-158 (the loop only copies: ctrlC_step) *)
Definition f_ctrlC_update (F : arith) (ps : psys) (c : cost) : option cost :=
  if kfull c then
    Q <- f_hwt F [142; 2] None (kw c) (kN c) (kN c) ;;                            (* 142 *)
    f <- f_gwt F [145; 2] None (kw c) (vopp (kp c)) (kN c) ;;                     (* 145 *)
    Some (set_qp c Q f (msetZero (kE c)) f)                                       (* 144, 146 *)
  else
    mat <- f_hwt F [148; 2] None (kw c) (kN c) (kN c) ;;                          (* 148 *)
    v <- f_gwt F [149; 2] None (kw c) (vopp (kp c)) (kN c) ;;                     (* 149 *)
    s <- for_ 0 (nrUStep ps) (ctrlC_step ps mat v) (kQ c, kc c, kE c, kf c) ;;
    let '(Q, cv, E, f) := s in Some (set_qp c Q cv E f).
(** costFunctions.cpp 206-211 *)
Definition f_mixedC_step (F : arith) (ps : psys) (M N : mx) (p w : vec Qc) (i : nat) (s : mx * mx * vec Qc)
  : option (mx * mx * vec Qc) :=
  let '(Q, E, f) := s in
  psi <- block (psPsi ps) (i * xDim ps) 0 (xDim ps) (fullUDim ps) ;;
  t0 <- f_mmul F [i; 206; 2] M psi ;;                                             (* 206 *)
  t <- f_addBlock F [i; 207; 2] t0 0 (i * uDim ps) (rows M) (uDim ps) N ;;        (* 207 *)
  Q' <- f_hwt F [i; 208; 2] (Some Q) w t t ;;                                     (* 208 *)
  phi <- block (psPhi ps) (i * xDim ps) 0 (xDim ps) (xDim ps) ;;
  h <- f_mmul F [i; 209; 2] M phi ;;
  E' <- f_hwt F [i; 210; 2] (Some E) w h t ;;                                     (* 210 *)
  xi <- seg (psxi ps) (i * xDim ps) (xDim ps) ;;
  g <- f_resid F [i; 212; 2] M xi p ;;
  f' <- f_gwt F [i; 211; 2] (Some f) w g t ;;                                     (* 211 *)
  Some (Q', E', f').
(** costFunctions.cpp 195-215 *)
Definition f_mixedC_update (F : arith) (ps : psys) (c : cost) : option cost :=
  if kfull c then
    t <- f_mmadd F [198; 2] (kM c) (psPsi ps) (kN c) ;;                           (* 198 *)
    Q <- f_hwt F [199; 2] None (kw c) t t ;;                                      (* 199 *)
    h <- f_mmul F [200; 2] (kM c) (psPhi ps) ;;
    E <- f_hwt F [201; 2] None (kw c) h t ;;                                      (* 201 *)
    g <- f_resid F [204; 2] (kM c) (psxi ps) (kp c) ;;
    f <- f_gwt F [202; 2] None (kw c) g t ;;                                      (* 202 *)
    cv <- f_lin_of F [203; 2] None ps E f ;;                                      (* 203 *)
    Some (set_qp c Q cv E f)
  else
    s <- for_ 0 (nrUStep ps) (f_mixedC_step F ps (kM c) (kN c) (kp c) (kw c)) (kQ c, kE c, kf c) ;;
    let '(Q, E, f) := s in
    cv <- f_lin_of F [213; 2] (Some (kc c)) ps E f ;;                             (* 213 *)
    Some (set_qp c Q cv E f).
Definition f_k_update (F : arith) (ps : psys) (c : cost) : option cost :=
  match kk c with
  | TrajectoryCost => f_trajC_update F ps c
  | TargetCost => f_targetC_update F ps c
  | ControlCost => f_ctrlC_update F ps c
  | MixedCost => f_mixedC_update F ps c
  end.
(** successive solves: before each one the user may change the weights (to [w]) (LMPC.cpp 245-247) *)
Fixpoint f_k_updates (F : arith) (h : list (vec Qc * psys)) (c : cost) : option cost :=
  match h with
  | [] => Some c
  | (w, ps) :: t => c' <- f_k_update F ps (set_w c w) ;; f_k_updates F t c'
  end.

(** src/LMPC.cpp 228-230, 252-255: the objective starts from [reg] times the identity ([reg] is the double written 1e-6) and
    zero; each cost in turn is added *)
Definition f_add_cost (F : arith) (i : nat) (c : cost) (s : mx * vec Qc) : option (mx * vec Qc) :=
  let '(Q, v) := s in
  require Nat.eqb (rows Q) (rows (kQ c)) && Nat.eqb (cols Q) (cols (kQ c)) ;;
  require Nat.eqb (vsize v) (vsize (kc c)) ;;
  Some (Mx (rows Q) (cols Q) (fun a b => F [a; b; i; 253; 3] [at_ Q a b; at_ (kQ c) a b] []),
        Vec (vsize v) (fun a => F [a; i; 254; 3] [vget v a; vget (kc c) a] [])).
Definition f_objective (F : arith) (reg : Qc) (n : nat) (l : list cost) : option (mx * vec Qc) :=
  (fix go (i : nat) (l : list cost) (s : mx * vec Qc) : option (mx * vec Qc) :=
     match l with [] => Some s | c :: t => s' <- f_add_cost F i c s ;; go (S i) t s' end)
    0 l (mscal reg (mident n n), vconst n 0%Qc).
