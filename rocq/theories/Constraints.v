(** Constraints.v -- model of include/constraints.h and src/constraints.cpp. *)
From Verif Require Import Base Eigen Preview AutoSpan.

(** indeterminate memory handed out by [resize], one function per use *)
Record junk := Junk {
  jmat : nat -> nat -> nat -> Qc;
  jvec : nat -> nat -> Qc;
  jext : nat -> nat -> ext
}.

(** the five final classes *)
Inductive ckind := KTraj | KCtrl | KMixed | KTrajB | KCtrlB.
(** include/constraints.h 28-33 *)
Inductive cflag := EqualityConstraint | InequalityConstraint | BoundConstraint.

(** One record for all classes; a class uses only its own fields.
    Constraint (constraints.h 74-78): nrConstr_, fullSizeEntry_, hasBeenInitialized_.
    EqIneqConstraint (101-106): A_, b_, Y_, z_, isIneq_.
    TrajectoryConstraint (140-141): E_, f_.   ControlConstraint (176-177): G_, f_.
    MixedConstraint (217-219): E_, G_, f_.
    TrajectoryBoundConstraint (263-266): lower_, upper_, lowerLines_, upperLines_.
    ControlBoundConstraint (303-306): lower_, upper_, lb_, ub_. *)
Record constr := Constr {
  ck : ckind;
  isIneq : bool;
  nrConstr : nat;
  fullSizeEntry : bool;
  hasBeenInit : bool;
  cE : mx;
  cG : mx;
  cf : vec ext;
  clower : vec ext;
  cupper : vec ext;
  lowerLines : list nat;
  upperLines : list nat;
  cA : mx;
  cb : vec ext;
  cY : mx;
  cz : vec ext;
  clb : vec ext;
  cub : vec ext
}.

Definition eempty : vec ext := vempty PInf.

(** constraints.h 247-254: lines whose bound is not infinite *)
Definition finite_lower_lines (v : vec ext) : list nat :=
  filter (fun i => negb (is_ninf (vget v i))) (seq 0 (vsize v)).
Definition finite_upper_lines (v : vec ext) : list nat :=
  filter (fun i => negb (is_pinf (vget v i))) (seq 0 (vsize v)).

(** constructors: constraints.h 127-132, 163-168, 203-209, 242-255, 286-291; constraints.cpp 16-32 *)
Definition mkTraj (E : mx) (f : vec ext) (ineq : bool) : constr :=
  Constr KTraj ineq 0 false false E mempty f eempty eempty [] [] mempty eempty mempty eempty eempty eempty.
Definition mkCtrl (G : mx) (f : vec ext) (ineq : bool) : constr :=
  Constr KCtrl ineq 0 false false mempty G f eempty eempty [] [] mempty eempty mempty eempty eempty eempty.
Definition mkMixed (E G : mx) (f : vec ext) (ineq : bool) : constr :=
  Constr KMixed ineq 0 false false E G f eempty eempty [] [] mempty eempty mempty eempty eempty eempty.
Definition mkTrajB (lower upper : vec ext) : constr :=
  Constr KTrajB true 0 false false mempty mempty eempty lower upper
    (finite_lower_lines lower) (finite_upper_lines upper) mempty eempty mempty eempty eempty eempty.
Definition mkCtrlB (lower upper : vec ext) : constr :=
  Constr KCtrlB false 0 false false mempty mempty eempty lower upper [] [] mempty eempty mempty eempty eempty eempty.

(** field updates *)
Definition set_EGf (c : constr) (E G : mx) (f : vec ext) : constr :=
  Constr (ck c) (isIneq c) (nrConstr c) (fullSizeEntry c) (hasBeenInit c) E G f (clower c) (cupper c)
    (lowerLines c) (upperLines c) (cA c) (cb c) (cY c) (cz c) (clb c) (cub c).
Definition set_bounds (c : constr) (lo up : vec ext) (ll ul : list nat) : constr :=
  Constr (ck c) (isIneq c) (nrConstr c) (fullSizeEntry c) (hasBeenInit c) (cE c) (cG c) (cf c) lo up
    ll ul (cA c) (cb c) (cY c) (cz c) (clb c) (cub c).
Definition set_rows (c : constr) (A : mx) (b : vec ext) (Y : mx) (z : vec ext) : constr :=
  Constr (ck c) (isIneq c) (nrConstr c) (fullSizeEntry c) (hasBeenInit c) (cE c) (cG c) (cf c) (clower c) (cupper c)
    (lowerLines c) (upperLines c) A b Y z (clb c) (cub c).
Definition set_lbub (c : constr) (lb ub : vec ext) : constr :=
  Constr (ck c) (isIneq c) (nrConstr c) (fullSizeEntry c) (hasBeenInit c) (cE c) (cG c) (cf c) (clower c) (cupper c)
    (lowerLines c) (upperLines c) (cA c) (cb c) (cY c) (cz c) lb ub.
Definition set_flags (c : constr) (nr : nat) (full init : bool) : constr :=
  Constr (ck c) (isIneq c) nr full init (cE c) (cG c) (cf c) (clower c) (cupper c)
    (lowerLines c) (upperLines c) (cA c) (cb c) (cY c) (cz c) (clb c) (cub c).

(** ** constraintType: constraints.cpp 86-93, 150-157, 228-235, 317-320, 369-372 *)
Definition constraintType (c : constr) : cflag :=
  match ck c with
  | KTraj | KCtrl | KMixed => if isIneq c then InequalityConstraint else EqualityConstraint
  | KTrajB => InequalityConstraint
  | KCtrlB => BoundConstraint
  end.

(** ** autoSpan *)

Definition zmax (a b : nat) : Z := Z.of_nat (Nat.max a b).

(** constraints.cpp 38-43 *)
Definition traj_autoSpan (j : junk) (c : constr) : outcome constr :=
  let md := zmax (rows (cE c)) (vsize (cf c)) in
  match spanMatrix (cE c) md 0 with
  | UB => UB
  | Throw e E => Throw e (set_EGf c E (cG c) (cf c))
  | Ok E =>
    match spanVector (jext j 0) (cf c) md with
    | UB => UB
    | Throw e f => Throw e (set_EGf c E (cG c) f)
    | Ok f => Ok (set_EGf c E (cG c) f)
    end
  end.

(** constraints.cpp 99-104 *)
Definition ctrl_autoSpan (j : junk) (c : constr) : outcome constr :=
  let md := zmax (rows (cG c)) (vsize (cf c)) in
  match spanMatrix (cG c) md 0 with
  | UB => UB
  | Throw e G => Throw e (set_EGf c (cE c) G (cf c))
  | Ok G =>
    match spanVector (jext j 0) (cf c) md with
    | UB => UB
    | Throw e f => Throw e (set_EGf c (cE c) G f)
    | Ok f => Ok (set_EGf c (cE c) G f)
    end
  end.

(** constraints.cpp 163-169 *)
Definition mixed_autoSpan (j : junk) (c : constr) : outcome constr :=
  let md := zmax (vsize (cf c)) (Nat.max (rows (cE c)) (rows (cG c))) in
  match spanMatrix (cE c) md 1 with
  | UB => UB
  | Throw e E => Throw e (set_EGf c E (cG c) (cf c))
  | Ok E =>
    match spanMatrix (cG c) md 0 with
    | UB => UB
    | Throw e G => Throw e (set_EGf c E G (cf c))
    | Ok G =>
      match spanVector (jext j 0) (cf c) md with
      | UB => UB
      | Throw e f => Throw e (set_EGf c E G f)
      | Ok f => Ok (set_EGf c E G f)
      end
    end
  end.

(** constraints.cpp 241-261; the recomputations of lines 246-260 compare the size after spanning *)
Definition trajB_autoSpan (j : junk) (c : constr) : outcome constr :=
  let md := zmax (vsize (clower c)) (vsize (cupper c)) in
  match spanVector (jext j 0) (clower c) md with
  | UB => UB
  | Throw e lo => Throw e (set_bounds c lo (cupper c) (lowerLines c) (upperLines c))
  | Ok lo =>
    match spanVector (jext j 1) (cupper c) md with
    | UB => UB
    | Throw e up => Throw e (set_bounds c lo up (lowerLines c) (upperLines c))
    | Ok up =>
      let ll := if negb (Z.of_nat (vsize lo) =? md)%Z then finite_lower_lines lo else lowerLines c in
      let ul := if negb (Z.of_nat (vsize up) =? md)%Z then finite_upper_lines up else upperLines c in
      Ok (set_bounds c lo up ll ul)
    end
  end.

(** constraints.cpp 326-331 *)
Definition ctrlB_autoSpan (j : junk) (c : constr) : outcome constr :=
  let md := zmax (vsize (clower c)) (vsize (cupper c)) in
  match spanVector (jext j 0) (clower c) md with
  | UB => UB
  | Throw e lo => Throw e (set_bounds c lo (cupper c) (lowerLines c) (upperLines c))
  | Ok lo =>
    match spanVector (jext j 1) (cupper c) md with
    | UB => UB
    | Throw e up => Throw e (set_bounds c lo up (lowerLines c) (upperLines c))
    | Ok up => Ok (set_bounds c lo up (lowerLines c) (upperLines c))
    end
  end.

Definition c_autoSpan (j : junk) (c : constr) : outcome constr :=
  match ck c with
  | KTraj => traj_autoSpan j c
  | KCtrl => ctrl_autoSpan j c
  | KMixed => mixed_autoSpan j c
  | KTrajB => trajB_autoSpan j c
  | KCtrlB => ctrlB_autoSpan j c
  end.

(** ** initializeConstraint.  nrConstr_ is an int: a value that does not fit is undefined. *)

(** the four resizes (constraints.cpp 60-63, 189-192, 278-281) *)
Definition resize_rows (j : junk) (ps : psys) (c : constr) (nr : nat) (full : bool) : constr :=
  let c := set_flags c nr full (hasBeenInit c) in
  set_rows c (mresize (jmat j 0) (cA c) nr (fullUDim ps)) (vresize (jext j 1) (cb c) nr)
             (mresize (jmat j 2) (cY c) nr (xDim ps)) (vresize (jext j 3) (cz c) nr).

(** constraints.cpp 45-64 *)
Definition traj_init (j : junk) (ps : psys) (c : constr) : outcome constr :=
  if negb (Nat.eqb (rows (cE c)) (vsize (cf c))) then Throw DomainError c          (* 47-49 *)
  else if Nat.eqb (cols (cE c)) (xDim ps) then                                     (* 51-52 *)
    let nr := rows (cE c) * nrXStep ps in
    if fits_int nr then Ok (resize_rows j ps c nr (fullSizeEntry c)) else UB
  else if Nat.eqb (cols (cE c)) (fullXDim ps) then                                 (* 53-55 *)
    let nr := rows (cE c) in
    if fits_int nr then Ok (resize_rows j ps c nr true) else UB
  else Throw DomainError c.                                                        (* 57 *)

(** constraints.cpp 106-135.  Lines 124-125: Eigen's move assignment exchanges the storages. *)
Definition ctrl_init (j : junk) (ps : psys) (c : constr) : outcome constr :=
  if hasBeenInit c then Throw RuntimeError c                                       (* 108-110 *)
  else if negb (Nat.eqb (rows (cG c)) (vsize (cf c))) then Throw DomainError c     (* 112-114 *)
  else if Nat.eqb (cols (cG c)) (uDim ps) then                                     (* 116-120 *)
    let nr := rows (cG c) * nrUStep ps in
    let b := vresize (jext j 1) (cb c) nr in
    if fits_int nr
    then Ok (set_rows (set_flags c nr (fullSizeEntry c) true)                      (* 134 *)
               (mzero nr (fullUDim ps)) b (mzero nr (xDim ps)) b)                  (* 129-132 *)
    else UB
  else if Nat.eqb (cols (cG c)) (fullUDim ps) then                                 (* 121-125 *)
    let nr := rows (cG c) in
    if fits_int nr
    then Ok (set_rows (set_flags (set_EGf c (cE c) (cA c) (cb c)) nr true true)
               (cG c) (cf c) (mzero nr (xDim ps)) (cf c))
    else UB
  else Throw DomainError c.                                                        (* 127 *)

(** constraints.cpp 171-195 *)
Definition mixed_init (j : junk) (ps : psys) (c : constr) : outcome constr :=
  if negb (Nat.eqb (rows (cE c)) (vsize (cf c))) then Throw DomainError c          (* 173-175 *)
  else if negb (Nat.eqb (rows (cG c)) (vsize (cf c))) then Throw DomainError c     (* 176-178 *)
  else
    let finish nr full :=                                                          (* 189-194 *)
      let c' := resize_rows j ps c nr full in
      if fits_int nr then Ok (set_rows c' (msetZero (cA c')) (cb c') (msetZero (cY c')) (cz c')) else UB in
    if Nat.eqb (cols (cE c)) (xDim ps) && Nat.eqb (cols (cG c)) (uDim ps)
    then finish (rows (cE c) * nrUStep ps) (fullSizeEntry c)                       (* 180-181 *)
    else if Nat.eqb (cols (cE c)) (fullXDim ps) && Nat.eqb (cols (cG c)) (fullUDim ps)
    then finish (rows (cE c)) true                                                 (* 182-184 *)
    else Throw DomainError c.                                                      (* 186 *)

(** constraints.cpp 263-282 *)
Definition trajB_init (j : junk) (ps : psys) (c : constr) : outcome constr :=
  if negb (Nat.eqb (vsize (clower c)) (vsize (cupper c))) then Throw DomainError c (* 265-267 *)
  else if Nat.eqb (vsize (clower c)) (xDim ps) then                                (* 269-270 *)
    let nr := (length (lowerLines c) + length (upperLines c)) * nrXStep ps in
    if fits_int nr then Ok (resize_rows j ps c nr (fullSizeEntry c)) else UB
  else if Nat.eqb (vsize (clower c)) (fullXDim ps) then                            (* 271-273 *)
    let nr := length (lowerLines c) + length (upperLines c) in
    if fits_int nr then Ok (resize_rows j ps c nr true) else UB
  else Throw DomainError c.                                                        (* 275 *)

(** constraints.cpp 333-357 *)
Definition ctrlB_init (j : junk) (ps : psys) (c : constr) : outcome constr :=
  if hasBeenInit c then Throw RuntimeError c                                       (* 335-337 *)
  else if negb (Nat.eqb (vsize (clower c)) (vsize (cupper c))) then Throw DomainError c (* 339-341 *)
  else if Nat.eqb (vsize (clower c)) (uDim ps) then                                (* 343-346 *)
    let nr := fullUDim ps in
    Ok (set_lbub (set_flags c nr (fullSizeEntry c) true)
          (vresize (jext j 4) (clb c) nr) (vresize (jext j 5) (cub c) nr))
  else if Nat.eqb (vsize (clower c)) (fullUDim ps) then                            (* 347-351 *)
    let nr := vsize (clower c) in
    if fits_int nr
    then Ok (set_lbub (set_flags (set_bounds c (clb c) (cub c) (lowerLines c) (upperLines c)) nr true true)
               (clower c) (cupper c))
    else UB
  else Throw DomainError c.                                                        (* 353 *)

Definition initializeConstraint (j : junk) (ps : psys) (c : constr) : outcome constr :=
  match ck c with
  | KTraj => traj_init j ps c
  | KCtrl => ctrl_init j ps c
  | KMixed => mixed_init j ps c
  | KTrajB => trajB_init j ps c
  | KCtrlB => ctrlB_init j ps c
  end.

(** ** update *)

(** constraints.cpp 76-82: one step of a per-step trajectory constraint *)
Definition traj_step (ps : psys) (E : mx) (f : vec ext) (i : nat) (s : mx * vec ext * mx * vec ext)
  : option (mx * vec ext * mx * vec ext) :=
  let '(A, b, Y, z) := s in
  let nl := rows E in
  psi <- block (psPsi ps) (i * xDim ps) 0 (xDim ps) (fullUDim ps) ;;
  ep <- mmul E psi ;;
  A' <- setBlock A (i * nl) 0 nl (fullUDim ps) ep ;;                               (* 77 *)
  phi <- block (psPhi ps) (i * xDim ps) 0 (xDim ps) (xDim ps) ;;
  eph <- mmul E phi ;;
  Y' <- setBlock Y (i * nl) 0 nl (xDim ps) eph ;;                                  (* 79 *)
  xi <- seg (psxi ps) (i * xDim ps) (xDim ps) ;;
  ex <- mvmul E xi ;;
  fz <- vesub f ex ;;
  z' <- setSeg z (i * nl) nl fz ;;                                                 (* 80 *)
  zs <- seg z' (i * nl) nl ;;
  Yb <- block Y' (i * nl) 0 nl (xDim ps) ;;
  yx <- mvmul Yb (x0 ps) ;;
  bz <- vesub zs yx ;;
  b' <- setSeg b (i * nl) nl bz ;;                                                 (* 81 *)
  Some (A', b', Y', z').

(** constraints.cpp 66-84 *)
Definition traj_update (ps : psys) (c : constr) : option constr :=
  if fullSizeEntry c then
    A <- mmul (cE c) (psPsi ps) ;;                                                 (* 69 *)
    Y <- mmul (cE c) (psPhi ps) ;;                                                 (* 71 *)
    ex <- mvmul (cE c) (psxi ps) ;;
    z <- vesub (cf c) ex ;;                                                        (* 72 *)
    yx <- mvmul Y (x0 ps) ;;
    b <- vesub z yx ;;                                                             (* 73 *)
    Some (set_rows c A b Y z)
  else
    s <- for_ 0 (nrXStep ps) (traj_step ps (cE c) (cf c)) (cA c, cb c, cY c, cz c) ;;
    let '(A, b, Y, z) := s in Some (set_rows c A b Y z).

(** constraints.cpp 141-144 *)
Definition ctrl_step (ps : psys) (G : mx) (f : vec ext) (i : nat) (s : mx * vec ext) : option (mx * vec ext) :=
  let '(A, b) := s in
  let nl := rows G in
  A' <- setBlock A (i * nl) (i * uDim ps) nl (uDim ps) G ;;
  b' <- setSeg b (i * nl) nl f ;;
  Some (A', b').

(** constraints.cpp 137-148 *)
Definition ctrl_update (ps : psys) (c : constr) : option constr :=
  if fullSizeEntry c then Some c
  else
    s <- for_ 0 (nrUStep ps) (ctrl_step ps (cG c) (cf c)) (cA c, cb c) ;;
    let '(A, b) := s in Some (set_rows c A b (msetZero (cY c)) b).                 (* 145-146 *)

(** constraints.cpp 217-219 *)
Definition mixed_shift (nl ud i : nat) (A : mx) : option mx :=
  for_ 1 (i + 1) (fun j P =>
    b <- block P ((i - 1) * nl) ((j - 1) * ud) nl ud ;;
    setBlock P (i * nl) (j * ud) nl ud b) A.

(** constraints.cpp 214-224 *)
Definition mixed_step (ps : psys) (E : mx) (f : vec ext) (i : nat) (s : mx * vec ext * mx * vec ext)
  : option (mx * vec ext * mx * vec ext) :=
  let '(A, b, Y, z) := s in
  let nl := rows E in
  let ud := uDim ps in
  let xd := xDim ps in
  psi <- block (psPsi ps) (i * xd) 0 xd ud ;;
  ep <- mmul E psi ;;
  A' <- setBlock A (i * nl) 0 nl ud ep ;;                                          (* 215 *)
  phi <- block (psPhi ps) (i * xd) 0 xd xd ;;
  eph <- mmul E phi ;;
  Y' <- setBlock Y (i * nl) 0 nl xd eph ;;                                         (* 216 *)
  A'' <- mixed_shift nl ud i A' ;;                                                 (* 217-219 *)
  xi <- seg (psxi ps) (i * xd) xd ;;
  ex <- mvmul E xi ;;
  fz <- vesub f ex ;;
  z' <- setSeg z (i * nl) nl fz ;;                                                 (* 222 *)
  zs <- seg z' (i * nl) nl ;;
  Yb <- block Y' (i * nl) 0 nl xd ;;
  yx <- mvmul Yb (x0 ps) ;;
  bz <- vesub zs yx ;;
  b' <- setSeg b (i * nl) nl bz ;;                                                 (* 223 *)
  Some (A'', b', Y', z').

(** constraints.cpp 197-226 *)
Definition mixed_update (ps : psys) (c : constr) : option constr :=
  if fullSizeEntry c then
    ep <- mmul (cE c) (psPsi ps) ;;
    A <- madd ep (cG c) ;;                                                         (* 200 *)
    Y <- mmul (cE c) (psPhi ps) ;;                                                 (* 202 *)
    ex <- mvmul (cE c) (psxi ps) ;;
    z <- vesub (cf c) ex ;;                                                        (* 203 *)
    yx <- mvmul Y (x0 ps) ;;
    b <- vesub z yx ;;                                                             (* 204 *)
    Some (set_rows c A b Y z)
  else
    let nl := rows (cE c) in
    let ud := uDim ps in
    let xd := xDim ps in
    A <- setBlock (cA c) 0 0 nl ud (cG c) ;;                                       (* 209 *)
    Y <- setBlock (cY c) 0 0 nl xd (cE c) ;;                                       (* 211 *)
    z <- setSeg (cz c) 0 nl (cf c) ;;                                              (* 212 *)
    zs <- seg z 0 nl ;;
    Yb <- block Y 0 0 nl xd ;;
    yx <- mvmul Yb (x0 ps) ;;
    bz <- vesub zs yx ;;
    b <- setSeg (cb c) 0 nl bz ;;                                                  (* 213 *)
    s <- for_ 1 (nrUStep ps) (mixed_step ps (cE c) (cf c)) (A, b, Y, z) ;;         (* 214-224 *)
    let '(A', b', Y', z') := s in Some (set_rows c A' b' Y' z').

(** a range-for over a std::vector<int> *)
Fixpoint for_list {S} (l : list nat) (body : nat -> S -> option S) (s : S) : option S :=
  match l with
  | [] => Some s
  | x :: t => s' <- body x s ;; for_list t body s'
  end.

(** constraints.cpp 290-295 (and 304-309): one row of a trajectory bound *)
Definition bound_row (ps : psys) (bnd : vec ext) (step line : nat) (s : mx * vec ext * mx * vec ext * nat)
  : option (mx * vec ext * mx * vec ext * nat) :=
  let '(A, b, Y, z, nl) := s in
  let r := line + xDim ps * step in
  A' <- setRow A nl (psPsi ps) r ;;
  Y' <- setRow Y nl (psPhi ps) r ;;
  lo <- vat bnd line ;;
  x <- vat (psxi ps) r ;;
  z' <- vset z nl (ext_sub lo x) ;;
  zn <- vat z' nl ;;
  yx <- rowDot Y' nl (x0 ps) ;;
  b' <- vset b nl (ext_sub zn yx) ;;
  Some (A', b', Y', z', nl + 1).

(** constraints.cpp 284-315.  The [break] of lines 297-299 and 311-313 leaves the loop
    after its first iteration when fullSizeEntry_ is set. *)
Definition trajB_update (ps : psys) (c : constr) : option constr :=
  let steps := if fullSizeEntry c then Nat.min 1 (nrXStep ps) else nrXStep ps in
  s <- for_ 0 steps (fun step => for_list (lowerLines c) (bound_row ps (clower c) step))
         (cA c, cb c, cY c, cz c, 0) ;;
  s' <- for_ 0 steps (fun step => for_list (upperLines c) (bound_row ps (cupper c) step)) s ;;
  let '(A, b, Y, z, _) := s' in Some (set_rows c A b Y z).

(** constraints.cpp 362-365 *)
Definition ctrlB_step (ps : psys) (lo up : vec ext) (i : nat) (s : vec ext * vec ext) : option (vec ext * vec ext) :=
  let '(lb, ub) := s in
  ub' <- setSeg ub (i * uDim ps) (uDim ps) up ;;
  lb' <- setSeg lb (i * uDim ps) (uDim ps) lo ;;
  Some (lb', ub').

(** constraints.cpp 359-367 *)
Definition ctrlB_update (ps : psys) (c : constr) : option constr :=
  if fullSizeEntry c then Some c
  else
    s <- for_ 0 (nrUStep ps) (ctrlB_step ps (clower c) (cupper c)) (clb c, cub c) ;;
    let '(lb, ub) := s in Some (set_lbub c lb ub).

Definition c_update (ps : psys) (c : constr) : option constr :=
  match ck c with
  | KTraj => traj_update ps c
  | KCtrl => ctrl_update ps c
  | KMixed => mixed_update ps c
  | KTrajB => trajB_update ps c
  | KCtrlB => ctrlB_update ps c
  end.

(** successive solves call update once each, with the preview system of that solve (LMPC.cpp 241-243) *)
Fixpoint c_updates (pss : list psys) (c : constr) : option constr :=
  match pss with
  | [] => Some c
  | ps :: t => c' <- c_update ps c ;; c_updates t c'
  end.
