(** SpecMeaning.v -- C53-C56: the control problem described by what is registered. *)
From Coq Require Import Permutation.
From Verif Require Import Base Eigen Spec Preview SpecApi AutoSpan Constraints Costs SpecConstraints SpecCosts Controller SpecController
  SpecProtocol SpecEndToEnd.

(** A solve of LMPC at the end of a history [h] (documented protocol), with answer [b], that meets the conditions of C36:
    trajectory bounds built with two vectors of the same size, per-step costs not solved with before, no bounds left by a
    removed constraint *)
Record posed (n m N : nat) (h : list op) (w : world) (p : nat) (e : senv) (b : bool) (w' : world) : Prop := {
  po_sizes : sizes_fit n m N;
  po_protocol : follows_protocol n m N world0 h;
  po_callable : callable world0 h;
  po_honest : honest world0 h;
  po_reached : reached h w;
  po_ps : m_ps (ctl w) = Some p;
  po_lmpc : m_is (ctl w) = None;
  po_even : forall i, In i (spC (ctl w)) -> even_bounds h i;
  po_fresh : fresh_steps (wps w p) h (spCost (ctl w));
  po_bounds : spB (ctl w) <> [] \/ stale world0 false h = false;
  po_solve : solve e w = Some (b, w')
}.
(** the controls that satisfy what is registered in [w] after [h], for the system and the initial state of [ps] *)
Definition admissible (h : list op) (w : world) (ps : psys) (V : nat -> Qc) : Prop :=
  all_imposed ps h (spC (ctl w)) V /\ (spB (ctl w) = [] -> representable (fullUDim ps) V).
(** what is minimized *)
Definition full_cost (h : list op) (w : world) (ps : psys) (V : nat -> Qc) : Qc :=
  (total_cost ps h (spCost (ctl w)) V + regularization (fullUDim ps) V)%Qc.
(** the same matrices and horizon, the initial state may differ *)
Definition same_model (p q : psys) : Prop := same_dims p q /\ psA p = psA q /\ psB p = psB q /\ psd p = psd q.

(** every constraint of one list is in the other, in any order, any number of times, under any object *)
Definition same_constraints (h1 : list op) (l1 : list nat) (h2 : list op) (l2 : list nat) : Prop :=
  (forall i, In i l1 -> exists j, In j l2 /\ con_data_of h1 i = con_data_of h2 j) /\
  (forall j, In j l2 -> exists i, In i l1 /\ con_data_of h1 i = con_data_of h2 j).
(** the same costs with the same weights, in any order *)
Definition same_costs (h1 : list op) (l1 : list nat) (h2 : list op) (l2 : list nat) : Prop :=
  Permutation (map (fun i => (cost_data_of h1 i, weights_of h1 i)) l1) (map (fun i => (cost_data_of h2 i, weights_of h2 i)) l2).

(** t a + (1 - t) b *)
Definition mix (t : Qc) (a b : nat -> Qc) : nat -> Qc := fun i => (t * a i + (1 - t) * b i)%Qc.
Definition opposite (M : mx) : mx := Mx (rows M) (cols M) (fun i j => - at_ M i j)%Qc.
Definition eopposite (v : vec ext) : vec ext := Vec (vsize v) (fun i => ext_opp (vget v i)).
(** an equality constraint *)
Definition is_equality (d : con_data) : Prop :=
  match d with DTraj _ _ ineq | DCtrl _ _ ineq | DMixed _ _ _ ineq => ineq = false | _ => False end.
Definition strictly_representable (n : nat) (U : nat -> Qc) : Prop := forall i, i < n -> (- DBL_MAX < U i)%Qc /\ (U i < DBL_MAX)%Qc.

(** ** Other coordinates: the state x of the first system is T z, z the state of the second *)
Definition other_coordinates (T : nat -> nat -> Qc) (p1 p2 : psys) : Prop :=
  uDim p1 = uDim p2 /\ nrUStep p1 = nrUStep p2 /\
  (forall i j, i < xDim p1 -> j < xDim p2 ->
     sum (xDim p1) (fun l => at_ (psA p1) i l * T l j)%Qc = sum (xDim p2) (fun l => T i l * at_ (psA p2) l j)%Qc) /\
  (forall i j, i < xDim p1 -> j < uDim p1 -> at_ (psB p1) i j = sum (xDim p2) (fun l => T i l * at_ (psB p2) l j)%Qc) /\
  (forall i, i < xDim p1 -> vget (psd p1) i = sum (xDim p2) (fun l => T i l * vget (psd p2) l)%Qc) /\
  (forall i, i < xDim p1 -> vget (x0 p1) i = sum (xDim p2) (fun l => T i l * vget (x0 p2) l)%Qc).
(** [E2] reads the state of the second system as [E1] reads that of the first: E2 = E1 T, per step or over the horizon *)
Definition reads_step (T : nat -> nat -> Qc) (p1 p2 : psys) (E1 E2 : mx) : Prop :=
  rows E1 = rows E2 /\ cols E1 = xDim p1 /\ cols E2 = xDim p2 /\
  forall i j, i < rows E1 -> j < xDim p2 -> at_ E2 i j = sum (xDim p1) (fun l => at_ E1 i l * T l j)%Qc.
Definition reads_horizon (T : nat -> nat -> Qc) (p1 p2 : psys) (E1 E2 : mx) : Prop :=
  rows E1 = rows E2 /\ cols E1 <> xDim p1 /\ cols E2 <> xDim p2 /\
  forall i k j, i < rows E1 -> k < nrXStep p1 -> j < xDim p2 ->
    at_ E2 i (k * xDim p2 + j) = sum (xDim p1) (fun l => at_ E1 i (k * xDim p1 + l) * T l j)%Qc.
Definition reads T p1 p2 E1 E2 : Prop := reads_step T p1 p2 E1 E2 \/ reads_horizon T p1 p2 E1 E2.
Definition con_reads T (p1 p2 : psys) (d1 d2 : con_data) : Prop :=
  match d1, d2 with
  | DTraj E1 f1 b1, DTraj E2 f2 b2 => reads T p1 p2 E1 E2 /\ f1 = f2 /\ b1 = b2
  | DMixed E1 G1 f1 b1, DMixed E2 G2 f2 b2 =>
      (reads_step T p1 p2 E1 E2 /\ cols G1 = uDim p1 \/ reads_horizon T p1 p2 E1 E2) /\ G1 = G2 /\ f1 = f2 /\ b1 = b2
  | DCtrl _ _ _, _ | DCtrlB _ _, _ => d1 = d2
  | _, _ => False
  end.
Definition cost_reads T (p1 p2 : psys) (d1 d2 : cost_data) : Prop :=
  match d1, d2 with
  | DTrajC M1 r1, DTrajC M2 r2 => reads T p1 p2 M1 M2 /\ r1 = r2
  | DTargetC M1 r1, DTargetC M2 r2 => reads_step T p1 p2 M1 M2 /\ r1 = r2
  | DMixedC M1 N1 r1, DMixedC M2 N2 r2 =>
      (reads_step T p1 p2 M1 M2 /\ cols N1 = uDim p1 \/ reads_horizon T p1 p2 M1 M2) /\ N1 = N2 /\ r1 = r2
  | DCtrlC _ _, _ => d1 = d2
  | _, _ => False
  end.
