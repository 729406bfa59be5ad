(** SpecFloats.v -- C58, C59: what is assumed of a rounded arithmetic, and the size of the rounding errors. *)
From Coq Require Import Permutation Qcabs.
From Verif Require Import Base Eigen Spec Preview SpecApi PreviewProofs Floats.
Open Scope Qc_scope.

(** [r] is [x] with a relative error of at most [u] *)
Definition within (u x r : Qc) : Prop := Qcabs (r - x) <= u * Qcabs x.
(** [r] is a result of adding the numbers of [l], in any order and with any bracketing, each addition with a relative error
    of at most [u] *)
Inductive added (u : Qc) : list Qc -> Qc -> Prop :=
| add_none : added u [] 0
| add_one x : added u [x] x
| add_two l l1 l2 a b r : Permutation l (l1 ++ l2) -> l1 <> [] -> l2 <> [] ->
    added u l1 a -> added u l2 b -> within u (a + b) r -> added u l r.
(** every product and every addition has a relative error of at most [u] (double precision: u = 2^-53, as long as nothing
    overflows or underflows) *)
Definition accurate (u : Qc) (F : arith) : Prop :=
  0 <= u /\ forall t cs ps, exists rs, Forall2 (fun p r => within u (fst p * snd p) r) ps rs /\ added u (cs ++ rs) (F t cs ps).
(** the relative error of [k] roundings in a row *)
Definition growth (u : Qc) (k : nat) : Qc := Qcpower (1 + u) k - 1.
(** the same system with absolute values: how large the terms added up can be *)
Definition mabs (a : nat -> nat -> Qc) : nat -> nat -> Qc := fun i j => Qcabs (a i j).
Definition vabs (v : nat -> Qc) : nat -> Qc := fun i => Qcabs (v i).
(** the histories of C04, with rounded updates *)
Fixpoint f_hist_ok (F : arith) (ps : psys) (h : list ps_op) : Prop :=
  match h with
  | []%list => True
  | (o :: t)%list => ps_op_ok ps o /\
      match f_ps_step F ps o with Ok s | Throw _ s => f_hist_ok F s t | UB => True end
  end.
(** how large the terms of x_k can be: the state of the system with absolute values *)
Definition size_of (ps : psys) (x U : nat -> Qc) (k : nat) : nat -> Qc :=
  state_at (xDim ps) (uDim ps) (mabs (at_ (psA ps))) (mabs (at_ (psB ps))) (vabs (vget (psd ps))) (vabs x) (vabs U) k.
Definition stacked_size (ps : psys) (x U : nat -> Qc) (r : nat) : Qc := size_of ps x U (r / xDim ps) (r mod xDim ps).
(** the sum of a list *)
Definition exactly : arith := fun _ cs ps => fold_right Qcplus 0 (cs ++ map (fun p => fst p * snd p) ps)%list.

(** the predicted trajectory [X] computed with [F] differs from the exact one by rounding errors only: [k] of them at most *)
Definition predicts (u : Qc) (k : nat) (ps : psys) (x U : nat -> Qc) (X : vec Qc) : Prop :=
  vsize X = (xDim ps * (nrUStep ps + 1))%nat /\
  forall t i, (t <= nrUStep ps)%nat -> (i < xDim ps)%nat ->
    Qcabs (vget X (t * xDim ps + i)%nat - state_of ps x U t i) <= growth u k * size_of ps x U t i.

(** ** C59 *)
From Verif Require Import AutoSpan Constraints SpecConstraints.
(** the row  l <= b  (or l = b) computed for  lhs <= rhs : both sides together are off by at most the growth of [k] roundings
    of terms of total size [size + |rhs|]; infinite right-hand sides are unchanged *)
Definition row_error (u : Qc) (k : nat) (l : Qc) (b : ext) (lhs : Qc) (rhs : ext) (size : Qc) : Prop :=
  match rhs with
  | Fin f => exists q, b = Fin q /\ Qcabs ((l - q) - (lhs - f)) <= growth u k * (size + Qcabs f)
  | e => b = e
  end.
(** a preview system just updated with [F], at the end of any history, and any new initial state *)
Definition computed (F : arith) (p : psys) : Prop :=
  exists s c b x n p1 h p0 q x', ps_new s c b x n = Ok p1 /\ f_hist_ok F p1 h /\ f_ps_run F p1 h = Some p0 /\
    f_updateSystem F p0 = Some q /\ vsize x' = xDim q /\ p = ps_xInit q x'.
Fixpoint f_c_updates (F : arith) (l : list psys) (c : constr) : option constr :=
  match l with
  | []%list => Some c
  | (p :: t)%list => c' <- f_c_update F p c ;; f_c_updates F t c'
  end.
Definition f_solves_with (F : arith) (ps0 : psys) (pss : list psys) (ps : psys) : Prop :=
  Forall (fun p => computed F p /\ same_dims p ps0) (pss ++ [ps])%list.
(** the rows [l r] compared with [b r] computed for the documented meaning of each class (SpecConstraints.v), for the initial
    state [x] and the control [U], with n components of the state and N steps *)
Definition traj_rounded (u : Qc) (ps : psys) (E : mx) (f : vec ext) (x U : nat -> Qc) (l : nat -> Qc) (b : nat -> ext) : Prop :=
  let k0 := (nrUStep ps * (xDim ps + 1))%nat in
  if Nat.eqb (cols E) (xDim ps)
  then forall k i, (k < nrXStep ps)%nat -> (i < rows E)%nat ->
         row_error u (k0 + xDim ps + 1) (l (k * rows E + i)%nat) (b (k * rows E + i)%nat)
           (apply (xDim ps) (at_ E) (state_of ps x U k) i) (vget f i)
           (apply (xDim ps) (mabs (at_ E)) (size_of ps x U k) i)
  else forall i, (i < rows E)%nat ->
         row_error u (k0 + fullXDim ps + 1) (l i) (b i)
           (apply (fullXDim ps) (at_ E) (stacked_state ps x U) i) (vget f i)
           (apply (fullXDim ps) (mabs (at_ E)) (stacked_size ps x U) i).
Definition mixed_rounded (u : Qc) (ps : psys) (E G : mx) (f : vec ext) (x U : nat -> Qc) (l : nat -> Qc) (b : nat -> ext) : Prop :=
  let k0 := (nrUStep ps * (xDim ps + 1))%nat in
  if Nat.eqb (cols E) (xDim ps) && Nat.eqb (cols G) (uDim ps)
  then forall k i, (k < nrUStep ps)%nat -> (i < rows E)%nat ->
         row_error u (k0 + xDim ps + 1) (l (k * rows E + i)%nat) (b (k * rows E + i)%nat)
           (apply (xDim ps) (at_ E) (state_of ps x U k) i + apply (uDim ps) (at_ G) (control_at (uDim ps) U k) i) (vget f i)
           (apply (xDim ps) (mabs (at_ E)) (size_of ps x U k) i
            + apply (uDim ps) (mabs (at_ G)) (control_at (uDim ps) (vabs U) k) i)
  else forall i, (i < rows E)%nat ->
         row_error u (k0 + fullXDim ps + 1) (l i) (b i)
           (apply (fullXDim ps) (at_ E) (stacked_state ps x U) i + apply (fullUDim ps) (at_ G) U i) (vget f i)
           (apply (fullXDim ps) (mabs (at_ E)) (stacked_size ps x U) i + apply (fullUDim ps) (mabs (at_ G)) (vabs U) i).
(** the rows of C10: one for each lower bound other than -inf and each upper bound other than +inf, at each step *)
Definition trajB_rounded (u : Qc) (ps : psys) (lower upper : vec ext) (x U : nat -> Qc) (nr : nat) (l : nat -> Qc)
    (b : nat -> ext) : Prop :=
  let says r k i e := row_error u (nrUStep ps * (xDim ps + 1) + 2) (l r) (b r) (state_of ps x U k i) e (size_of ps x U k i) in
  (forall r, (r < nr)%nat -> exists k i e, (k < nrXStep ps)%nat /\ (i < xDim ps)%nat /\
     (e = vpart (xDim ps) lower k i /\ e <> NInf \/ e = vpart (xDim ps) upper k i /\ e <> PInf) /\ says r k i e) /\
  (forall k i, (k < nrXStep ps)%nat -> (i < xDim ps)%nat ->
     (vpart (xDim ps) lower k i <> NInf -> exists r, (r < nr)%nat /\ says r k i (vpart (xDim ps) lower k i)) /\
     (vpart (xDim ps) upper k i <> PInf -> exists r, (r < nr)%nat /\ says r k i (vpart (xDim ps) upper k i))).
(** [l] compared with [e], up to [tol] *)
Definition meets (tol : Qc) (ineq : bool) (l : Qc) (e : ext) : Prop :=
  match e with
  | Fin q => if ineq then l <= q + tol else Qcabs (l - q) <= tol
  | PInf => ineq = true
  | NInf => False
  end.
Definition ext_abs (e : ext) : Qc := match e with Fin q => Qcabs q | _ => 0 end.
