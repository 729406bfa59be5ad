(** Costs.v -- model of include/costFunctions.h and src/costFunctions.cpp. *)
From Verif Require Import Base Eigen Preview AutoSpan Constraints.

(** the four final classes *)
Inductive kkind := TrajectoryCost | TargetCost | ControlCost | MixedCost.

(** One record for all classes; a class uses only its own fields.
    CostFunction (costFunctions.h 90-96): fullSizeEntry_, Q_, c_, E_, f_, weights_.
    TrajectoryCost (125-126), TargetCost (154-155): M_, p_.  ControlCost (184-185): N_, p_.
    MixedCost (216-218): M_, N_, p_. *)
Record cost := Cost {
  kk : kkind;
  kfull : bool;
  kM : mx;
  kN : mx;
  kp : vec Qc;
  kw : vec Qc;
  kQ : mx;
  kc : vec Qc;
  kE : mx;
  kf : vec Qc
}.

Definition qempty : vec Qc := vempty 0%Qc.

(** constructors: costFunctions.h 111-118, 141-148, 170-177, 201-209; weights_ = Ones(p.rows()) *)
Definition mkTrajC (M : mx) (p : vec Qc) : cost :=
  Cost TrajectoryCost false M mempty p (vconst (vsize p) 1%Qc) mempty qempty mempty qempty.
Definition mkTargetC (M : mx) (p : vec Qc) : cost :=
  Cost TargetCost false M mempty p (vconst (vsize p) 1%Qc) mempty qempty mempty qempty.
Definition mkCtrlC (N : mx) (p : vec Qc) : cost :=
  Cost ControlCost false mempty N p (vconst (vsize p) 1%Qc) mempty qempty mempty qempty.
Definition mkMixedC (M N : mx) (p : vec Qc) : cost :=
  Cost MixedCost false M N p (vconst (vsize p) 1%Qc) mempty qempty mempty qempty.

(** field updates *)
Definition set_data (c : cost) (M N : mx) (p w : vec Qc) : cost :=
  Cost (kk c) (kfull c) M N p w (kQ c) (kc c) (kE c) (kf c).
Definition set_w (c : cost) (w : vec Qc) : cost := set_data c (kM c) (kN c) (kp c) w.
Definition set_qp (c : cost) (Q : mx) (cv : vec Qc) (E : mx) (f : vec Qc) : cost :=
  Cost (kk c) (kfull c) (kM c) (kN c) (kp c) (kw c) Q cv E f.
Definition set_full (c : cost) : cost :=
  Cost (kk c) true (kM c) (kN c) (kp c) (kw c) (kQ c) (kc c) (kE c) (kf c).

(** ** weights(w): costFunctions.h 54-67 *)
Definition k_weights (c : cost) (w : vec Qc) : outcome cost :=
  let n := vsize (kw c) in
  let m := vsize w in
  if Nat.eqb m n then Ok (set_w c w)                                              (* 57-58 *)
  else if Nat.eqb m 0 then UB                                                     (* 59: n % 0 *)
  else if Nat.eqb (n mod m) 0 then                                                (* 59-63 *)
    of_opt (v <- for_ 0 (n / m) (fun i v => setSeg v (i * m) m w) (kw c) ;; Some (set_w c v))
  else Throw DomainError c.                                                       (* 64-66 *)

(** weight(x): costFunctions.h 72-76 *)
Definition k_weight (c : cost) (x : Qc) : cost := set_w c (vconst (vsize (kw c)) x).

(** ** autoSpan *)

(** spanVector of p_, then of weights_ (the common tail of the three autoSpan) *)
Definition span_pw (j : junk) (c : cost) (M N : mx) (md : Z) : outcome cost :=
  match spanVector (jvec j 0) (kp c) md with
  | UB => UB
  | Throw e p => Throw e (set_data c M N p (kw c))
  | Ok p =>
    match spanVector (jvec j 1) (kw c) md with
    | UB => UB
    | Throw e w => Throw e (set_data c M N p w)
    | Ok w => Ok (set_data c M N p w)
    end
  end.

(** costFunctions.cpp 36-42 *)
Definition trajC_autoSpan (j : junk) (c : cost) : outcome cost :=
  let md := zmax (rows (kM c)) (Nat.max (vsize (kw c)) (vsize (kp c))) in
  match spanMatrix (kM c) md 0 with
  | UB => UB
  | Throw e M => Throw e (set_data c M (kN c) (kp c) (kw c))
  | Ok M => span_pw j c M (kN c) md
  end.

(** costFunctions.cpp 114-120 *)
Definition ctrlC_autoSpan (j : junk) (c : cost) : outcome cost :=
  let md := zmax (rows (kN c)) (Nat.max (vsize (kw c)) (vsize (kp c))) in
  match spanMatrix (kN c) md 0 with
  | UB => UB
  | Throw e N => Throw e (set_data c (kM c) N (kp c) (kw c))
  | Ok N => span_pw j c (kM c) N md
  end.

(** costFunctions.cpp 164-171 *)
Definition mixedC_autoSpan (j : junk) (c : cost) : outcome cost :=
  let md := zmax (rows (kM c)) (Nat.max (rows (kN c)) (Nat.max (vsize (kw c)) (vsize (kp c)))) in
  match spanMatrix (kM c) md 1 with
  | UB => UB
  | Throw e M => Throw e (set_data c M (kN c) (kp c) (kw c))
  | Ok M =>
    match spanMatrix (kN c) md 0 with
    | UB => UB
    | Throw e N => Throw e (set_data c M N (kp c) (kw c))
    | Ok N => span_pw j c M N md
    end
  end.

(** TargetCost inherits CostFunction::autoSpan, which does nothing (costFunctions.cpp 20-22) *)
Definition k_autoSpan (j : junk) (c : cost) : outcome cost :=
  match kk c with
  | TrajectoryCost => trajC_autoSpan j c
  | TargetCost => Ok c
  | ControlCost => ctrlC_autoSpan j c
  | MixedCost => mixedC_autoSpan j c
  end.

(** ** initializeCost *)

(** costFunctions.cpp 24-30 *)
Definition k_resize (j : junk) (ps : psys) (c : cost) : cost :=
  set_qp c (mresize (jmat j 0) (kQ c) (fullUDim ps) (fullUDim ps)) (vresize (jvec j 1) (kc c) (fullUDim ps))
           (mresize (jmat j 2) (kE c) (xDim ps) (fullUDim ps)) (vresize (jvec j 3) (kf c) (fullUDim ps)).

Definition vsetZero (v : vec Qc) : vec Qc := vconst (vsize v) 0%Qc.

(** costFunctions.cpp 44-61 *)
Definition trajC_init (j : junk) (ps : psys) (c : cost) : outcome cost :=
  let c := k_resize j ps c in                                                     (* 46 *)
  if negb (Nat.eqb (rows (kM c)) (vsize (kp c))) then Throw DomainError c         (* 47-49 *)
  else if Nat.eqb (cols (kM c)) (xDim ps)                                         (* 51-55 *)
  then Ok (set_qp c (msetZero (kQ c)) (vsetZero (kc c)) (msetZero (kE c)) (vsetZero (kf c)))
  else if Nat.eqb (cols (kM c)) (fullXDim ps) then Ok (set_full c)                (* 57-58 *)
  else Throw DomainError c.                                                       (* 59 *)

(** costFunctions.cpp 88-98 *)
Definition targetC_init (j : junk) (ps : psys) (c : cost) : outcome cost :=
  let c := k_resize j ps c in
  if negb (Nat.eqb (rows (kM c)) (vsize (kp c))) then Throw DomainError c
  else if negb (Nat.eqb (cols (kM c)) (xDim ps)) then Throw DomainError c
  else Ok c.

(** costFunctions.cpp 122-137 *)
Definition ctrlC_init (j : junk) (ps : psys) (c : cost) : outcome cost :=
  let c := k_resize j ps c in                                                     (* 124 *)
  if negb (Nat.eqb (rows (kN c)) (vsize (kp c))) then Throw DomainError c         (* 125-127 *)
  else if Nat.eqb (cols (kN c)) (uDim ps)                                         (* 129-131 *)
  then Ok (set_qp c (msetZero (kQ c)) (kc c) (msetZero (kE c)) (kf c))
  else if Nat.eqb (cols (kN c)) (fullUDim ps) then Ok (set_full c)                (* 132-133 *)
  else Throw DomainError c.                                                       (* 135 *)

(** costFunctions.cpp 173-193 *)
Definition mixedC_init (j : junk) (ps : psys) (c : cost) : outcome cost :=
  let c := k_resize j ps c in                                                     (* 175 *)
  if negb (Nat.eqb (rows (kM c)) (vsize (kp c))) then Throw DomainError c         (* 176-178 *)
  else if negb (Nat.eqb (rows (kN c)) (vsize (kp c))) then Throw DomainError c    (* 179-181 *)
  else if Nat.eqb (cols (kM c)) (xDim ps) && Nat.eqb (cols (kN c)) (uDim ps)      (* 183-187 *)
  then Ok (set_qp c (msetZero (kQ c)) (vsetZero (kc c)) (msetZero (kE c)) (vsetZero (kf c)))
  else if Nat.eqb (cols (kM c)) (fullXDim ps) && Nat.eqb (cols (kN c)) (fullUDim ps)
  then Ok (set_full c)                                                            (* 188-189 *)
  else Throw DomainError c.                                                       (* 191 *)

Definition initializeCost (j : junk) (ps : psys) (c : cost) : outcome cost :=
  match kk c with
  | TrajectoryCost => trajC_init j ps c
  | TargetCost => targetC_init j ps c
  | ControlCost => ctrlC_init j ps c
  | MixedCost => mixedC_init j ps c
  end.

(** ** update *)

(** tmp.transpose() * weights_.asDiagonal() * tmp  (costFunctions.cpp 67, 75, 103, 142, 148, 199, 208) *)
Definition twt (w : vec Qc) (t : mx) : option mx := d <- mdiag (mtrans t) w ;; mmul d t.
(** h.transpose() * weights_.asDiagonal() * tmp  (69, 77, 105, 201, 210) *)
Definition hwt (w : vec Qc) (h t : mx) : option mx := d <- mdiag (mtrans h) w ;; mmul d t.
(** g.transpose() * weights_.asDiagonal() * tmp  (70, 78, 106, 145, 149, 202, 211) *)
Definition gwt (w : vec Qc) (g : vec Qc) (t : mx) : option (vec Qc) := d <- vdiag g w ;; vmmul d t.
(** E_.transpose() * ps.x0 + f_  (71, 80, 107, 203, 213) *)
Definition lin_of (ps : psys) (E : mx) (f : vec Qc) : option (vec Qc) :=
  ex <- mvmul (mtrans E) (x0 ps) ;; vadd ex f.

(** costFunctions.cpp 74-78: one step *)
Definition trajC_step (ps : psys) (M : mx) (p w : vec Qc) (i : nat) (s : mx * mx * vec Qc) : option (mx * mx * vec Qc) :=
  let '(Q, E, f) := s in
  psi <- block (psPsi ps) (i * xDim ps) 0 (xDim ps) (fullUDim ps) ;;
  t <- mmul M psi ;;                                                              (* 74 *)
  q <- twt w t ;;
  Q' <- madd Q q ;;                                                               (* 75 *)
  phi <- block (psPhi ps) (i * xDim ps) 0 (xDim ps) (xDim ps) ;;
  h <- mmul M phi ;;
  e <- hwt w h t ;;
  E' <- madd E e ;;                                                               (* 77 *)
  xi <- seg (psxi ps) (i * xDim ps) (xDim ps) ;;
  mxi <- mvmul M xi ;;
  g <- vsub mxi p ;;
  fv <- gwt w g t ;;
  f' <- vadd f fv ;;                                                              (* 78 *)
  Some (Q', E', f').

(** costFunctions.cpp 63-82 *)
Definition trajC_update (ps : psys) (c : cost) : option cost :=
  if kfull c then
    t <- mmul (kM c) (psPsi ps) ;;                                                (* 66 *)
    Q <- twt (kw c) t ;;                                                          (* 67 *)
    h <- mmul (kM c) (psPhi ps) ;;
    E <- hwt (kw c) h t ;;                                                        (* 69 *)
    mxi <- mvmul (kM c) (psxi ps) ;;
    g <- vsub mxi (kp c) ;;
    f <- gwt (kw c) g t ;;                                                        (* 70 *)
    cv <- lin_of ps E f ;;                                                        (* 71 *)
    Some (set_qp c Q cv E f)
  else
    s <- for_ 0 (nrXStep ps) (trajC_step ps (kM c) (kp c) (kw c)) (kQ c, kE c, kf c) ;;
    let '(Q, E, f) := s in
    cv <- lin_of ps E f ;;                                                        (* 80 *)
    Some (set_qp c Q cv E f).

(** costFunctions.cpp 100-108 *)
Definition targetC_update (ps : psys) (c : cost) : option cost :=
  psi <- bottomRows (psPsi ps) (xDim ps) ;;
  t <- mmul (kM c) psi ;;                                                         (* 102 *)
  Q <- twt (kw c) t ;;                                                            (* 103 *)
  phi <- bottomRows (psPhi ps) (xDim ps) ;;
  h <- mmul (kM c) phi ;;
  E <- hwt (kw c) h t ;;                                                          (* 105 *)
  xi <- tail (psxi ps) (xDim ps) ;;
  mxi <- mvmul (kM c) xi ;;
  g <- vsub mxi (kp c) ;;
  f <- gwt (kw c) g t ;;                                                          (* 106 *)
  cv <- lin_of ps E f ;;                                                          (* 107 *)
  Some (set_qp c Q cv E f).

(** costFunctions.cpp 150-156: one step *)
Definition ctrlC_step (ps : psys) (mat : mx) (v : vec Qc) (i : nat) (s : mx * vec Qc * mx * vec Qc)
  : option (mx * vec Qc * mx * vec Qc) :=
  let '(Q, cv, E, f) := s in
  Q' <- setBlock Q (i * uDim ps) (i * uDim ps) (uDim ps) (uDim ps) mat ;;         (* 151 *)
  E' <- setBlock E 0 (i * uDim ps) (xDim ps) (uDim ps) (mzero (xDim ps) (uDim ps)) ;; (* 153 *)
  f' <- setSeg f (i * uDim ps) (uDim ps) v ;;                                     (* 154 *)
  fs <- seg f' (i * uDim ps) (uDim ps) ;;
  cv' <- setSeg cv (i * uDim ps) (uDim ps) fs ;;                                  (* 155 *)
  Some (Q', cv', E', f').

(** costFunctions.cpp 139-158 *)
Definition ctrlC_update (ps : psys) (c : cost) : option cost :=
  if kfull c then
    Q <- twt (kw c) (kN c) ;;                                                     (* 142 *)
    f <- gwt (kw c) (vopp (kp c)) (kN c) ;;                                       (* 145 *)
    Some (set_qp c Q f (msetZero (kE c)) f)                                       (* 144, 146 *)
  else
    mat <- twt (kw c) (kN c) ;;                                                   (* 148 *)
    v <- gwt (kw c) (vopp (kp c)) (kN c) ;;                                       (* 149 *)
    s <- for_ 0 (nrUStep ps) (ctrlC_step ps mat v) (kQ c, kc c, kE c, kf c) ;;
    let '(Q, cv, E, f) := s in Some (set_qp c Q cv E f).

(** costFunctions.cpp 206-211: one step *)
Definition mixedC_step (ps : psys) (M N : mx) (p w : vec Qc) (i : nat) (s : mx * mx * vec Qc) : option (mx * mx * vec Qc) :=
  let '(Q, E, f) := s in
  psi <- block (psPsi ps) (i * xDim ps) 0 (xDim ps) (fullUDim ps) ;;
  t0 <- mmul M psi ;;                                                             (* 206 *)
  t <- addBlock t0 0 (i * uDim ps) (rows M) (uDim ps) N ;;                        (* 207 *)
  q <- twt w t ;;
  Q' <- madd Q q ;;                                                               (* 208 *)
  phi <- block (psPhi ps) (i * xDim ps) 0 (xDim ps) (xDim ps) ;;
  h <- mmul M phi ;;
  e <- hwt w h t ;;
  E' <- madd E e ;;                                                               (* 210 *)
  xi <- seg (psxi ps) (i * xDim ps) (xDim ps) ;;
  mxi <- mvmul M xi ;;
  g <- vsub mxi p ;;
  fv <- gwt w g t ;;
  f' <- vadd f fv ;;                                                              (* 211 *)
  Some (Q', E', f').

(** costFunctions.cpp 195-215 *)
Definition mixedC_update (ps : psys) (c : cost) : option cost :=
  if kfull c then
    t0 <- mmul (kM c) (psPsi ps) ;;
    t <- madd t0 (kN c) ;;                                                        (* 198 *)
    Q <- twt (kw c) t ;;                                                          (* 199 *)
    h <- mmul (kM c) (psPhi ps) ;;
    E <- hwt (kw c) h t ;;                                                        (* 201 *)
    mxi <- mvmul (kM c) (psxi ps) ;;
    g <- vsub mxi (kp c) ;;
    f <- gwt (kw c) g t ;;                                                        (* 202 *)
    cv <- lin_of ps E f ;;                                                        (* 203 *)
    Some (set_qp c Q cv E f)
  else
    s <- for_ 0 (nrUStep ps) (mixedC_step ps (kM c) (kN c) (kp c) (kw c)) (kQ c, kE c, kf c) ;;
    let '(Q, E, f) := s in
    l <- lin_of ps E f ;;
    cv <- vadd (kc c) l ;;                                                        (* 213 *)
    Some (set_qp c Q cv E f).

Definition k_update (ps : psys) (c : cost) : option cost :=
  match kk c with
  | TrajectoryCost => trajC_update ps c
  | TargetCost => targetC_update ps c
  | ControlCost => ctrlC_update ps c
  | MixedCost => mixedC_update ps c
  end.

(** successive solves: before each one the user may change the weights (to [w]); solve calls update
    once, with the preview system of that solve (LMPC.cpp 245-247) *)
Fixpoint k_updates (h : list (vec Qc * psys)) (c : cost) : option cost :=
  match h with
  | [] => Some c
  | (w, ps) :: t => c' <- k_update ps (set_w c w) ;; k_updates t c'
  end.
