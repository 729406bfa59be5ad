(** SpecCosts.v -- the documented value of the cost functions (include/costFunctions.h 98-102,
    129-133, 158-162, 188-192), with weights [w] and the conventional factor 1/2 of the QP objective.
    [x] is the initial state, [U] the stacked control. *)
From Verif Require Import Base Eigen Spec Preview SpecApi.

(** 1/2 sum_k ||M x_k - p||^2_w for k = 0..N (entry of the size of one state), or 1/2 ||M X - p||^2_w *)
Definition traj_cost (ps : psys) (M : mx) (p w : vec Qc) (x U : nat -> Qc) : Qc :=
  if Nat.eqb (cols M) (xDim ps)
  then sum (nrXStep ps) (fun k => wsq (rows M) (vget w) (fun i =>
         apply (xDim ps) (at_ M) (state_of ps x U k) i - vget p i)%Qc)
  else wsq (rows M) (vget w) (fun i => apply (fullXDim ps) (at_ M) (stacked_state ps x U) i - vget p i)%Qc.

(** 1/2 ||M x_N - p||^2_w *)
Definition target_cost (ps : psys) (M : mx) (p w : vec Qc) (x U : nat -> Qc) : Qc :=
  wsq (rows M) (vget w) (fun i => apply (xDim ps) (at_ M) (state_of ps x U (nrUStep ps)) i - vget p i)%Qc.

(** 1/2 sum_k ||N u_k - p||^2_w for k = 0..N-1, or 1/2 ||N U - p||^2_w *)
Definition ctrl_cost (ps : psys) (N : mx) (p w : vec Qc) (U : nat -> Qc) : Qc :=
  if Nat.eqb (cols N) (uDim ps)
  then sum (nrUStep ps) (fun k => wsq (rows N) (vget w) (fun i =>
         apply (uDim ps) (at_ N) (control_at (uDim ps) U k) i - vget p i)%Qc)
  else wsq (rows N) (vget w) (fun i => apply (fullUDim ps) (at_ N) U i - vget p i)%Qc.

(** 1/2 sum_k ||M x_k + N u_k - p||^2_w for k = 0..N-1, or 1/2 ||M X + N U - p||^2_w *)
Definition mixed_cost (ps : psys) (M N : mx) (p w : vec Qc) (x U : nat -> Qc) : Qc :=
  if Nat.eqb (cols M) (xDim ps) && Nat.eqb (cols N) (uDim ps)
  then sum (nrUStep ps) (fun k => wsq (rows M) (vget w) (fun i =>
         apply (xDim ps) (at_ M) (state_of ps x U k) i
         + apply (uDim ps) (at_ N) (control_at (uDim ps) U k) i - vget p i)%Qc)
  else wsq (rows M) (vget w) (fun i =>
         apply (fullXDim ps) (at_ M) (stacked_state ps x U) i + apply (fullUDim ps) (at_ N) U i - vget p i)%Qc.

(** successive solves: before each one the user may have set new weights (of the size of [p], which is [n]);
    the preview systems are updated and keep the dimensions of [ps0] *)
Definition cost_history (ps0 : psys) (n : nat) (h : list (vec Qc * psys)) : Prop :=
  Forall (fun a => vsize (fst a) = n /\ ready (snd a) /\ same_dims (snd a) ps0) h.

(** ** Freshly built costs and their valid shapes *)
From Verif Require Import Costs.

Inductive fresh_cost : cost -> Prop :=
| fresh_trajC M p : fresh_cost (mkTrajC M p)
| fresh_targetC M p : fresh_cost (mkTargetC M p)
| fresh_ctrlC N p : fresh_cost (mkCtrlC N p)
| fresh_mixedC M N p : fresh_cost (mkMixedC M N p).

(** the documented shape requirements *)
Definition valid_cost_shape (ps : psys) (c : cost) : Prop :=
  match kk c with
  | TrajectoryCost => rows (kM c) = vsize (kp c) /\ (cols (kM c) = xDim ps \/ cols (kM c) = fullXDim ps)
  | TargetCost => rows (kM c) = vsize (kp c) /\ cols (kM c) = xDim ps
  | ControlCost => rows (kN c) = vsize (kp c) /\ (cols (kN c) = uDim ps \/ cols (kN c) = fullUDim ps)
  | MixedCost => rows (kM c) = vsize (kp c) /\ rows (kN c) = vsize (kp c) /\
      ((cols (kM c) = xDim ps /\ cols (kN c) = uDim ps) \/ (cols (kM c) = fullXDim ps /\ cols (kN c) = fullUDim ps))
  end.

(** per-step trajectory and mixed costs *)
Definition step_entry (ps : psys) (c : cost) : Prop :=
  match kk c with
  | TrajectoryCost => cols (kM c) = xDim ps
  | MixedCost => cols (kM c) = xDim ps /\ cols (kN c) = uDim ps
  | _ => False
  end.
