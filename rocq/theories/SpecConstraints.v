(** SpecConstraints.v -- the documented meaning of the constraint classes
    (include/constraints.h 109-118, 146-154, 181-193, 222-235, 268-279), in terms of the
    dynamics x_{k+1} = A x_k + B u_k + d of the preview system.  [x] is the initial state,
    [U] the stacked control, [ineq] tells inequality from equality. *)
From Verif Require Import Base Eigen Spec Preview SpecApi.

(** E x_k <= f for k = 0..N (entry of the size of one state), or E X <= f (full entry) *)
Definition traj_means (ps : psys) (E : mx) (f : vec ext) (ineq : bool) (x U : nat -> Qc) : Prop :=
  if Nat.eqb (cols E) (xDim ps)
  then forall k i, k < nrXStep ps -> i < rows E ->
         cmp ineq (apply (xDim ps) (at_ E) (state_of ps x U k) i) (vget f i)
  else forall i, i < rows E ->
         cmp ineq (apply (fullXDim ps) (at_ E) (stacked_state ps x U) i) (vget f i).

(** G u_k <= f for k = 0..N-1, or G U <= f *)
Definition ctrl_means (ps : psys) (G : mx) (f : vec ext) (ineq : bool) (U : nat -> Qc) : Prop :=
  if Nat.eqb (cols G) (uDim ps)
  then forall k i, k < nrUStep ps -> i < rows G ->
         cmp ineq (apply (uDim ps) (at_ G) (control_at (uDim ps) U k) i) (vget f i)
  else forall i, i < rows G -> cmp ineq (apply (fullUDim ps) (at_ G) U i) (vget f i).

(** E x_k + G u_k <= f for k = 0..N-1, or E X + G U <= f *)
Definition mixed_means (ps : psys) (E G : mx) (f : vec ext) (ineq : bool) (x U : nat -> Qc) : Prop :=
  if Nat.eqb (cols E) (xDim ps) && Nat.eqb (cols G) (uDim ps)
  then forall k i, k < nrUStep ps -> i < rows E ->
         cmp ineq (apply (xDim ps) (at_ E) (state_of ps x U k) i
                   + apply (uDim ps) (at_ G) (control_at (uDim ps) U k) i)%Qc (vget f i)
  else forall i, i < rows E ->
         cmp ineq (apply (fullXDim ps) (at_ E) (stacked_state ps x U) i
                   + apply (fullUDim ps) (at_ G) U i)%Qc (vget f i).

(** lower <= x_k <= upper for k = 0..N, or lower <= X <= upper *)
Definition traj_between (ps : psys) (lower upper : vec ext) (x U : nat -> Qc) : Prop :=
  if Nat.eqb (vsize lower) (xDim ps)
  then forall k, k < nrXStep ps -> within_bounds (xDim ps) (vget lower) (vget upper) (state_of ps x U k)
  else within_bounds (fullXDim ps) (vget lower) (vget upper) (stacked_state ps x U).

(** what copra's rows say instead: x_k <= lower (where lower is not -inf) and x_k <= upper *)
Definition below_both (n : nat) (lower upper : vec ext) (x : nat -> Qc) : Prop :=
  forall i, i < n -> (vget lower i <> NInf -> q_le_ext (x i) (vget lower i)) /\ q_le_ext (x i) (vget upper i).
Definition traj_below_both (ps : psys) (lower upper : vec ext) (x U : nat -> Qc) : Prop :=
  if Nat.eqb (vsize lower) (xDim ps)
  then forall k, k < nrXStep ps -> below_both (xDim ps) lower upper (state_of ps x U k)
  else below_both (fullXDim ps) lower upper (stacked_state ps x U).

(** lower <= u_k <= upper for k = 0..N-1, or lower <= U <= upper *)
Definition ctrl_between (ps : psys) (lower upper : vec ext) (U : nat -> Qc) : Prop :=
  if Nat.eqb (vsize lower) (uDim ps)
  then forall k, k < nrUStep ps -> within_bounds (uDim ps) (vget lower) (vget upper) (control_at (uDim ps) U k)
  else within_bounds (fullUDim ps) (vget lower) (vget upper) U.

(** ** Freshly built constraints, their valid shapes and row counts (C12-C14) *)
From Verif Require Import Constraints.

Inductive fresh_constr : constr -> Prop :=
| fresh_traj E f ineq : fresh_constr (mkTraj E f ineq)
| fresh_ctrl G f ineq : fresh_constr (mkCtrl G f ineq)
| fresh_mixed E G f ineq : fresh_constr (mkMixed E G f ineq)
| fresh_trajB lo up : fresh_constr (mkTrajB lo up)
| fresh_ctrlB lo up : fresh_constr (mkCtrlB lo up).

(** the documented shape requirements *)
Definition valid_shape (ps : psys) (c : constr) : Prop :=
  match ck c with
  | KTraj => rows (cE c) = vsize (cf c) /\ (cols (cE c) = xDim ps \/ cols (cE c) = fullXDim ps)
  | KCtrl => rows (cG c) = vsize (cf c) /\ (cols (cG c) = uDim ps \/ cols (cG c) = fullUDim ps)
  | KMixed => rows (cE c) = vsize (cf c) /\ rows (cG c) = vsize (cf c) /\
      ((cols (cE c) = xDim ps /\ cols (cG c) = uDim ps) \/ (cols (cE c) = fullXDim ps /\ cols (cG c) = fullUDim ps))
  | KTrajB => vsize (clower c) = vsize (cupper c) /\ (vsize (clower c) = xDim ps \/ vsize (clower c) = fullXDim ps)
  | KCtrlB => vsize (clower c) = vsize (cupper c) /\ (vsize (clower c) = uDim ps \/ vsize (clower c) = fullUDim ps)
  end.

(** number of rows the constraint contributes when its shape is valid *)
Definition row_count (ps : psys) (c : constr) : nat :=
  match ck c with
  | KTraj => if Nat.eqb (cols (cE c)) (xDim ps) then rows (cE c) * nrXStep ps else rows (cE c)
  | KCtrl => if Nat.eqb (cols (cG c)) (uDim ps) then rows (cG c) * nrUStep ps else rows (cG c)
  | KMixed => if Nat.eqb (cols (cE c)) (xDim ps) && Nat.eqb (cols (cG c)) (uDim ps)
              then rows (cE c) * nrUStep ps else rows (cE c)
  | KTrajB => let lines := length (lowerLines c) + length (upperLines c) in
              if Nat.eqb (vsize (clower c)) (xDim ps) then lines * nrXStep ps else lines
  | KCtrlB => fullUDim ps
  end.

(** successive solves with preview systems of the same dimensions, the last one being [ps] *)
Definition solves_with (ps0 : psys) (pss : list psys) (ps : psys) : Prop :=
  Forall (fun p => ready p /\ same_dims p ps0) (pss ++ [ps]).
