(** Floats.v -- the prediction and the constraints computed with rounded arithmetic.  The other files compute with exact
    rationals; here each sum of products is what an arithmetic [F] makes of it.  What Eigen evaluates as
    c + ... + a*b + ... is one call of [F]: the order of the additions is [F]'s choice and may depend on the place in the
    code, the pass of the loop and the entry (the list of naturals), as it does with vectorization. *)
From Verif Require Import Base Eigen Preview AutoSpan Constraints.

(** place -> the numbers to add -> the products to add -> result *)
Definition arith := list nat -> list Qc -> list (Qc * Qc) -> Qc.
(** the [n] products a_k * b_k *)
Definition prods (n : nat) (a b : nat -> Qc) : list (Qc * Qc) := map (fun k => (a k, b k)) (seq 0 n).
(** d minus the [n] products a_k * b_k; an infinite d stays infinite *)
Definition f_minus (F : arith) (t : list nat) (d : ext) (n : nat) (a b : nat -> Qc) : ext :=
  match d with Fin q => Fin (F t [q] (prods n (fun k => (- a k)%Qc) b)) | e => e end.

(** a * b *)
Definition f_mmul (F : arith) (t : list nat) (a b : mx) : option mx :=
  require Nat.eqb (cols a) (rows b) ;;
  Some (Mx (rows a) (cols b) (fun i j => F (i :: j :: t) [] (prods (cols a) (at_ a i) (fun k => at_ b k j)))).
(** a * b + g *)
Definition f_mmadd (F : arith) (t : list nat) (a b g : mx) : option mx :=
  require Nat.eqb (cols a) (rows b) ;; require Nat.eqb (rows a) (rows g) && Nat.eqb (cols b) (cols g) ;;
  Some (Mx (rows a) (cols b) (fun i j => F (i :: j :: t) [at_ g i j] (prods (cols a) (at_ a i) (fun k => at_ b k j)))).
(** m * v + d *)
Definition f_mvadd (F : arith) (t : list nat) (m : mx) (v d : vec Qc) : option (vec Qc) :=
  require Nat.eqb (cols m) (vsize v) ;; require Nat.eqb (rows m) (vsize d) ;;
  Some (Vec (rows m) (fun i => F (i :: t) [vget d i] (prods (cols m) (at_ m i) (vget v)))).
(** d - m * v *)
Definition f_mvsub (F : arith) (t : list nat) (d : vec ext) (m : mx) (v : vec Qc) : option (vec ext) :=
  require Nat.eqb (cols m) (vsize v) ;; require Nat.eqb (vsize d) (rows m) ;;
  Some (Vec (vsize d) (fun i => f_minus F (i :: t) (vget d i) (cols m) (at_ m i) (vget v))).

(** ** PreviewSystem *)
(** src/PreviewSystem.cpp 63-71 *)
Definition f_update_step (F : arith) (xd ud : nat) (A : mx) (d : vec Qc) (i : nat) (s : mx * mx * vec Qc)
  : option (mx * mx * vec Qc) :=
  let '(Phi, Psi, xi) := s in
  p <- block Phi ((i - 1) * xd) 0 xd xd ;;                  (* 64 *)
  ap <- f_mmul F [i; 64] A p ;;
  Phi' <- setBlock Phi (i * xd) 0 xd xd ap ;;
  q <- block Psi ((i - 1) * xd) 0 xd ud ;;                  (* 65 *)
  aq <- f_mmul F [i; 65] A q ;;
  Psi' <- setBlock Psi (i * xd) 0 xd ud aq ;;
  Psi'' <- psi_shift xd ud i Psi' ;;                        (* 66-68 *)
  s <- seg xi ((i - 1) * xd) xd ;;                          (* 70 *)
  r <- f_mvadd F [i; 70] A s d ;;
  xi' <- setSeg xi (i * xd) xd r ;;
  Some (Phi', Psi'', xi').
(** src/PreviewSystem.cpp 57-74 *)
Definition f_updateSystem (F : arith) (ps : psys) : option psys :=
  let xd := xDim ps in
  let ud := uDim ps in
  Phi <- setBlock (psPhi ps) xd 0 xd xd (psA ps) ;;         (* 59 *)
  Psi <- setBlock (psPsi ps) xd 0 xd ud (psB ps) ;;         (* 60 *)
  xi <- setSeg (psxi ps) xd xd (psd ps) ;;                  (* 61 *)
  s <- for_ 2 (nrXStep ps) (f_update_step F xd ud (psA ps) (psd ps)) (Phi, Psi, xi) ;;  (* 63-71 *)
  let '(Phi', Psi', xi') := s in
  Some (PS true (nrUStep ps) (nrXStep ps) xd ud (fullXDim ps) (fullUDim ps) (x0 ps)
          (psA ps) (psB ps) (psd ps) Phi' Psi' xi').        (* 73 *)
(** src/LMPC.cpp 285 (and InitialStateLMPC.cpp 127): Phi * x + Psi * U + xi *)
Definition f_preview (F : arith) (ps : psys) (x U : vec Qc) : option (vec Qc) :=
  require Nat.eqb (cols (psPhi ps)) (vsize x) ;; require Nat.eqb (cols (psPsi ps)) (vsize U) ;;
  require Nat.eqb (rows (psPhi ps)) (rows (psPsi ps)) ;; require Nat.eqb (rows (psPhi ps)) (vsize (psxi ps)) ;;
  Some (Vec (rows (psPhi ps)) (fun i =>
    F [i; 285] [vget (psxi ps) i] (prods (cols (psPhi ps)) (at_ (psPhi ps) i) (vget x) ++
                                   prods (cols (psPsi ps)) (at_ (psPsi ps) i) (vget U)))).
(** calls on a preview system: system, xInit and the writes to the fields do not compute (Preview.v) *)
Definition f_ps_step (F : arith) (ps : psys) (o : ps_op) : outcome psys :=
  match o with
  | PUpdate => of_opt (f_updateSystem F ps)
  | PEnsureUpdated => of_opt (if isUpdated ps then Some ps else f_updateSystem F ps)
  | _ => ps_step ps o
  end.
Fixpoint f_ps_run (F : arith) (ps : psys) (h : list ps_op) : option psys :=
  match h with
  | [] => Some ps
  | o :: t => match f_ps_step F ps o with
              | Ok s | Throw _ s => f_ps_run F s t
              | UB => None
              end
  end.

(** ** Constraints *)
(** constraints.cpp 75-82 *)
Definition f_traj_step (F : arith) (ps : psys) (E : mx) (f : vec ext) (i : nat) (s : mx * vec ext * mx * vec ext)
  : option (mx * vec ext * mx * vec ext) :=
  let '(A, b, Y, z) := s in
  let nl := rows E in
  psi <- block (psPsi ps) (i * xDim ps) 0 (xDim ps) (fullUDim ps) ;;
  ep <- f_mmul F [i; 77; 1] E psi ;;
  A' <- setBlock A (i * nl) 0 nl (fullUDim ps) ep ;;                               (* 77 *)
  phi <- block (psPhi ps) (i * xDim ps) 0 (xDim ps) (xDim ps) ;;
  eph <- f_mmul F [i; 79; 1] E phi ;;
  Y' <- setBlock Y (i * nl) 0 nl (xDim ps) eph ;;                                  (* 79 *)
  xi <- seg (psxi ps) (i * xDim ps) (xDim ps) ;;
  fz <- f_mvsub F [i; 80; 1] f E xi ;;
  z' <- setSeg z (i * nl) nl fz ;;                                                 (* 80 *)
  zs <- seg z' (i * nl) nl ;;
  Yb <- block Y' (i * nl) 0 nl (xDim ps) ;;
  bz <- f_mvsub F [i; 81; 1] zs Yb (x0 ps) ;;
  b' <- setSeg b (i * nl) nl bz ;;                                                 (* 81 *)
  Some (A', b', Y', z').
(** constraints.cpp 66-84 *)
Definition f_traj_update (F : arith) (ps : psys) (c : constr) : option constr :=
  if fullSizeEntry c then
    A <- f_mmul F [69; 1] (cE c) (psPsi ps) ;;                                     (* 69 *)
    Y <- f_mmul F [71; 1] (cE c) (psPhi ps) ;;                                     (* 71 *)
    z <- f_mvsub F [72; 1] (cf c) (cE c) (psxi ps) ;;                              (* 72 *)
    b <- f_mvsub F [73; 1] z Y (x0 ps) ;;                                          (* 73 *)
    Some (set_rows c A b Y z)
  else
    s <- for_ 0 (nrXStep ps) (f_traj_step F ps (cE c) (cf c)) (cA c, cb c, cY c, cz c) ;;
    let '(A, b, Y, z) := s in Some (set_rows c A b Y z).
(** constraints.cpp 214-224 *)
Definition f_mixed_step (F : arith) (ps : psys) (E : mx) (f : vec ext) (i : nat) (s : mx * vec ext * mx * vec ext)
  : option (mx * vec ext * mx * vec ext) :=
  let '(A, b, Y, z) := s in
  let nl := rows E in
  let ud := uDim ps in
  let xd := xDim ps in
  psi <- block (psPsi ps) (i * xd) 0 xd ud ;;
  ep <- f_mmul F [i; 215; 1] E psi ;;
  A' <- setBlock A (i * nl) 0 nl ud ep ;;                                          (* 215 *)
  phi <- block (psPhi ps) (i * xd) 0 xd xd ;;
  eph <- f_mmul F [i; 216; 1] E phi ;;
  Y' <- setBlock Y (i * nl) 0 nl xd eph ;;                                         (* 216 *)
  A'' <- mixed_shift nl ud i A' ;;                                                 (* 217-219 *)
  xi <- seg (psxi ps) (i * xd) xd ;;
  fz <- f_mvsub F [i; 222; 1] f E xi ;;
  z' <- setSeg z (i * nl) nl fz ;;                                                 (* 222 *)
  zs <- seg z' (i * nl) nl ;;
  Yb <- block Y' (i * nl) 0 nl xd ;;
  bz <- f_mvsub F [i; 223; 1] zs Yb (x0 ps) ;;
  b' <- setSeg b (i * nl) nl bz ;;                                                 (* 223 *)
  Some (A'', b', Y', z').
(** constraints.cpp 197-226 *)
Definition f_mixed_update (F : arith) (ps : psys) (c : constr) : option constr :=
  if fullSizeEntry c then
    A <- f_mmadd F [200; 1] (cE c) (psPsi ps) (cG c) ;;                            (* 200 *)
    Y <- f_mmul F [202; 1] (cE c) (psPhi ps) ;;                                    (* 202 *)
    z <- f_mvsub F [203; 1] (cf c) (cE c) (psxi ps) ;;                             (* 203 *)
    b <- f_mvsub F [204; 1] z Y (x0 ps) ;;                                         (* 204 *)
    Some (set_rows c A b Y z)
  else
    let nl := rows (cE c) in
    let ud := uDim ps in
    let xd := xDim ps in
    A <- setBlock (cA c) 0 0 nl ud (cG c) ;;                                       (* 209 *)
    Y <- setBlock (cY c) 0 0 nl xd (cE c) ;;                                       (* 211 *)
    z <- setSeg (cz c) 0 nl (cf c) ;;                                              (* 212 *)
    zs <- seg z 0 nl ;;
    Yb <- block Y 0 0 nl xd ;;
    bz <- f_mvsub F [213; 1] zs Yb (x0 ps) ;;
    b <- setSeg (cb c) 0 nl bz ;;                                                  (* 213 *)
    s <- for_ 1 (nrUStep ps) (f_mixed_step F ps (cE c) (cf c)) (A, b, Y, z) ;;     (* 214-224 *)
    let '(A', b', Y', z') := s in Some (set_rows c A' b' Y' z').
(** constraints.cpp 290-295, 304-309 *)
Definition f_bound_row (F : arith) (ps : psys) (bnd : vec ext) (step line : nat) (s : mx * vec ext * mx * vec ext * nat)
  : option (mx * vec ext * mx * vec ext * nat) :=
  let '(A, b, Y, z, nl) := s in
  let r := line + xDim ps * step in
  A' <- setRow A nl (psPsi ps) r ;;
  Y' <- setRow Y nl (psPhi ps) r ;;
  lo <- vat bnd line ;;
  x <- vat (psxi ps) r ;;
  z' <- vset z nl (f_minus F [nl; 293; 1] lo 1 (fun _ => 1%Qc) (fun _ => x)) ;;    (* 293, 307: one product, by 1 *)
  zn <- vat z' nl ;;
  require (nl <? rows Y') && Nat.eqb (cols Y') (vsize (x0 ps)) ;;
  b' <- vset b nl (f_minus F [nl; 294; 1] zn (cols Y') (at_ Y' nl) (vget (x0 ps))) ;; (* 294, 308 *)
  Some (A', b', Y', z', nl + 1).
(** constraints.cpp 284-315 *)
Definition f_trajB_update (F : arith) (ps : psys) (c : constr) : option constr :=
  let steps := if fullSizeEntry c then Nat.min 1 (nrXStep ps) else nrXStep ps in
  s <- for_ 0 steps (fun step => for_list (lowerLines c) (f_bound_row F ps (clower c) step))
         (cA c, cb c, cY c, cz c, 0) ;;
  s' <- for_ 0 steps (fun step => for_list (upperLines c) (f_bound_row F ps (cupper c) step)) s ;;
  let '(A, b, Y, z, _) := s' in Some (set_rows c A b Y z).
(** the other classes only copy numbers (constraints.cpp 137-148, 359-367) *)
Definition f_c_update (F : arith) (ps : psys) (c : constr) : option constr :=
  match ck c with
  | KTraj => f_traj_update F ps c
  | KMixed => f_mixed_update F ps c
  | KTrajB => f_trajB_update F ps c
  | KCtrl => ctrl_update ps c
  | KCtrlB => ctrlB_update ps c
  end.
