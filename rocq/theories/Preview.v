(** Preview.v -- model of PreviewSystem (include/PreviewSystem.h, src/PreviewSystem.cpp). *)
From Verif Require Import Base Eigen.

(** include/PreviewSystem.h 54-67: the public fields.  Dimension fields are
    non-negative ints; direct writes to the dimension fields are not modelled. *)
Record psys := PS {
  isUpdated : bool;
  nrUStep : nat;
  nrXStep : nat;
  xDim : nat;
  uDim : nat;
  fullXDim : nat;
  fullUDim : nat;
  x0 : vec Qc;
  psA : mx;
  psB : mx;
  psd : vec Qc;
  psPhi : mx;
  psPsi : mx;
  psxi : vec Qc
}.

(** include/PreviewSystem.h 24, 54-67: default constructor *)
Definition ps_default : psys :=
  PS false 0 0 0 0 0 0 (vempty 0%Qc) mempty mempty (vempty 0%Qc) mempty mempty (vempty 0%Qc).

(** src/PreviewSystem.cpp 16-55: system.  Lines 38-41: the dimension fields are
    [int]; values that do not fit are treated as undefined. *)
Definition system (ps : psys) (state control : mx) (bias xInit : vec Qc) (numberOfSteps : Z) : outcome psys :=
  if negb (Nat.eqb (vsize xInit) (rows state)) then Throw DomainError ps        (* 19-21 *)
  else if negb (Nat.eqb (rows state) (cols state)) then Throw DomainError ps    (* 22-24 *)
  else if negb (Nat.eqb (vsize xInit) (rows control)) then Throw DomainError ps (* 25-27 *)
  else if negb (Nat.eqb (vsize xInit) (vsize bias)) then Throw DomainError ps   (* 28-30 *)
  else if (numberOfSteps <=? 0)%Z then Throw DomainError ps                     (* 31-33 *)
  else
    let nu := Z.to_nat numberOfSteps in
    let nx := nu + 1 in
    let xd := cols state in
    let ud := cols control in
    if fits_int nx && fits_int xd && fits_int ud && fits_int (xd * nx) && fits_int (ud * nu)
    then of_opt
      (Phi <- setBlock (mzero (xd * nx) xd) 0 0 xd xd (mident xd xd) ;;         (* 47, 51-52 *)
       Some (PS false nu nx xd ud (xd * nx) (ud * nu) xInit state control bias
               Phi (mzero (xd * nx) (ud * nu)) (vconst (xd * nx) 0%Qc)))        (* 35-54 *)
    else UB.

(** src/PreviewSystem.cpp 10-14: the constructor is [system] on a default object *)
Definition ps_new (state control : mx) (bias xInit : vec Qc) (n : Z) : outcome psys :=
  system ps_default state control bias xInit n.

(** src/PreviewSystem.cpp 66-68: inner loop copying the shifted blocks of Psi *)
Definition psi_shift (xd ud i : nat) (Psi : mx) : option mx :=
  for_ 1 i (fun j P =>
    b <- block P ((i - 1) * xd) ((j - 1) * ud) xd ud ;;
    setBlock P (i * xd) (j * ud) xd ud b) Psi.

(** src/PreviewSystem.cpp 63-71: one iteration of the outer loop *)
Definition update_step (xd ud : nat) (A : mx) (d : vec Qc) (i : nat) (s : mx * mx * vec Qc)
  : option (mx * mx * vec Qc) :=
  let '(Phi, Psi, xi) := s in
  p <- block Phi ((i - 1) * xd) 0 xd xd ;;                  (* 64 *)
  ap <- mmul A p ;;
  Phi' <- setBlock Phi (i * xd) 0 xd xd ap ;;
  q <- block Psi ((i - 1) * xd) 0 xd ud ;;                  (* 65 *)
  aq <- mmul A q ;;
  Psi' <- setBlock Psi (i * xd) 0 xd ud aq ;;
  Psi'' <- psi_shift xd ud i Psi' ;;                        (* 66-68 *)
  s <- seg xi ((i - 1) * xd) xd ;;                          (* 70 *)
  as_ <- mvmul A s ;;
  r <- vadd as_ d ;;
  xi' <- setSeg xi (i * xd) xd r ;;
  Some (Phi', Psi'', xi').

(** src/PreviewSystem.cpp 57-74: updateSystem *)
Definition updateSystem (ps : psys) : option psys :=
  let xd := xDim ps in
  let ud := uDim ps in
  Phi <- setBlock (psPhi ps) xd 0 xd xd (psA ps) ;;         (* 59 *)
  Psi <- setBlock (psPsi ps) xd 0 xd ud (psB ps) ;;         (* 60 *)
  xi <- setSeg (psxi ps) xd xd (psd ps) ;;                  (* 61 *)
  s <- for_ 2 (nrXStep ps) (update_step xd ud (psA ps) (psd ps)) (Phi, Psi, xi) ;;  (* 63-71 *)
  let '(Phi', Psi', xi') := s in
  Some (PS true (nrUStep ps) (nrXStep ps) xd ud (fullXDim ps) (fullUDim ps) (x0 ps)
          (psA ps) (psB ps) (psd ps) Phi' Psi' xi').        (* 73 *)

(** include/PreviewSystem.h 52: xInit (no size check) *)
Definition ps_xInit (ps : psys) (x : vec Qc) : psys :=
  PS (isUpdated ps) (nrUStep ps) (nrXStep ps) (xDim ps) (uDim ps) (fullXDim ps) (fullUDim ps) x
     (psA ps) (psB ps) (psd ps) (psPhi ps) (psPsi ps) (psxi ps).

(** the public fields A, B, d (include/PreviewSystem.h 62-64) written by the user, and
    isUpdated cleared by the user (line 54, "setting this to false will force a new update") *)
Definition ps_setModel (ps : psys) (A B : mx) (d : vec Qc) : psys :=
  PS (isUpdated ps) (nrUStep ps) (nrXStep ps) (xDim ps) (uDim ps) (fullXDim ps) (fullUDim ps) (x0 ps)
     A B d (psPhi ps) (psPsi ps) (psxi ps).
Definition ps_clearUpdated (ps : psys) : psys :=
  PS false (nrUStep ps) (nrXStep ps) (xDim ps) (uDim ps) (fullXDim ps) (fullUDim ps) (x0 ps)
     (psA ps) (psB ps) (psd ps) (psPhi ps) (psPsi ps) (psxi ps).

(** src/LMPC.cpp 233-235: the update done by solve *)
Definition ensureUpdated (ps : psys) : option psys :=
  if isUpdated ps then Some ps else updateSystem ps.

(** src/LMPC.cpp 285 (and InitialStateLMPC.cpp 127): Phi * x + Psi * U + xi *)
Definition preview (ps : psys) (x U : vec Qc) : option (vec Qc) :=
  a <- mvmul (psPhi ps) x ;;
  b <- mvmul (psPsi ps) U ;;
  s <- vadd a b ;;
  vadd s (psxi ps).

(** Histories of calls on one preview system *)
Inductive ps_op :=
| PSystem (state control : mx) (bias xInit : vec Qc) (n : Z)
| PXInit (x : vec Qc)
| PSetModel (A B : mx) (d : vec Qc)
| PClearUpdated
| PUpdate
| PEnsureUpdated.

Definition ps_step (ps : psys) (o : ps_op) : outcome psys :=
  match o with
  | PSystem s c b x n => system ps s c b x n
  | PXInit x => Ok (ps_xInit ps x)
  | PSetModel A B d => Ok (ps_setModel ps A B d)
  | PClearUpdated => Ok (ps_clearUpdated ps)
  | PUpdate => of_opt (updateSystem ps)
  | PEnsureUpdated => of_opt (ensureUpdated ps)
  end.

(** a history; an exception is caught by the caller and the object used further *)
Fixpoint ps_run (ps : psys) (h : list ps_op) : option psys :=
  match h with
  | [] => Some ps
  | o :: t => match ps_step ps o with
              | Ok s | Throw _ s => ps_run s t
              | UB => None
              end
  end.
