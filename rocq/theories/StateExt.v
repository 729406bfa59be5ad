(** StateExt.v -- states, constraints and costs depend only on the entries of the initial state and of the control that exist. *)
From Verif Require Import Base Eigen Spec Preview SpecApi PreviewProofs AutoSpan Constraints SpecConstraints ConstraintMeaning Costs SpecCosts
  CostProofs CostMeaning Controller SpecController SpecEndToEnd EndToEndMain Determined.

Section Ext.
Variables (ps : psys) (x x' U U' : nat -> Qc).
Hypothesis R : ready ps.
Hypothesis Hx : forall i, i < xDim ps -> x i = x' i.
Hypothesis HU : forall j, j < fullUDim ps -> U j = U' j.
Lemma state_of_ext k i : k <= nrUStep ps -> i < xDim ps -> state_of ps x U k i = state_of ps x' U' k i.
Proof using R Hx HU.
  intros Hk Hi. apply state_at_ext; [exact Hx| |exact Hi]. intros c Hc. apply HU. rewrite (rd_fu _ R). nia.
Qed.
Lemma stacked_ext r : r < fullXDim ps -> stacked_state ps x U r = stacked_state ps x' U' r.
Proof using R Hx HU.
  intro Hr. rewrite (rd_fx _ R), (rd_nx _ R) in Hr. assert (Px : 0 < xDim ps) by (destruct (xDim ps); lia).
  apply state_of_ext; [|apply Nat.mod_upper_bound; lia].
  assert (r / xDim ps < nrUStep ps + 1) by (apply Nat.div_lt_upper_bound; lia). lia.
Qed.
Lemma control_at_ext k j : k < nrUStep ps -> j < uDim ps -> control_at (uDim ps) U k j = control_at (uDim ps) U' k j.
Proof using R HU. intros Hk Hj. apply HU. rewrite (rd_fu _ R). nia. Qed.
Lemma apply_ext_v n M (v v' : nat -> Qc) i : (forall j, j < n -> v j = v' j) -> apply n M v i = apply n M v' i.
Proof using. intro H. unfold apply. apply sum_ext. intros j Hj. rewrite H by exact Hj. reflexivity. Qed.
Lemma imposes_ext1 d : imposes ps d x U -> imposes ps d x' U'.
Proof using R Hx HU.
  assert (NX := rd_nx _ R).
  assert (AS : forall k M i, k < nrXStep ps -> apply (xDim ps) M (state_of ps x U k) i = apply (xDim ps) M (state_of ps x' U' k) i)
    by (intros; apply apply_ext_v; intros; apply state_of_ext; lia).
  assert (AT : forall M i, apply (fullXDim ps) M (stacked_state ps x U) i = apply (fullXDim ps) M (stacked_state ps x' U') i)
    by (intros; apply apply_ext_v; intros; apply stacked_ext; assumption).
  assert (AC : forall k M i, k < nrUStep ps -> apply (uDim ps) M (control_at (uDim ps) U k) i = apply (uDim ps) M (control_at (uDim ps) U' k) i)
    by (intros; apply apply_ext_v; intros; apply control_at_ext; assumption).
  assert (AU : forall M i, apply (fullUDim ps) M U i = apply (fullUDim ps) M U' i) by (intros; apply apply_ext_v; assumption).
  destruct d as [E f q|G f q|E G f q|lo up|lo up]; cbn [imposes means]; unfold traj_means, ctrl_means, mixed_means, traj_below_both, ctrl_between, below_both, within_bounds;
    (match goal with |- context [if ?b then _ else _] => destruct b end); intro H.
  - intros k i Hk Hi. rewrite <- AS by exact Hk. auto.
  - intros i Hi. rewrite <- AT. auto.
  - intros k i Hk Hi. rewrite <- AC by exact Hk. auto.
  - intros i Hi. rewrite <- AU. auto.
  - intros k i Hk Hi. rewrite <- AS, <- AC by lia. auto.
  - intros i Hi. rewrite <- AT, <- AU. auto.
  - intros k Hk i Hi. rewrite <- state_of_ext by lia. apply H; assumption.
  - intros i Hi. rewrite <- stacked_ext by lia. apply H; assumption.
  - intros k Hk i Hi. rewrite <- control_at_ext by lia. apply H; assumption.
  - intros i Hi. rewrite <- HU by lia. apply H; assumption.
Qed.
Lemma cost_value_ext_x d w : cost_value ps d w x U = cost_value ps d w x' U'.
Proof using R Hx HU.
  assert (NX := rd_nx _ R).
  assert (AS : forall k M i, k <= nrUStep ps -> apply (xDim ps) M (state_of ps x U k) i = apply (xDim ps) M (state_of ps x' U' k) i)
    by (intros; apply apply_ext_v; intros; apply state_of_ext; lia).
  assert (AT : forall M i, apply (fullXDim ps) M (stacked_state ps x U) i = apply (fullXDim ps) M (stacked_state ps x' U') i)
    by (intros; apply apply_ext_v; intros; apply stacked_ext; assumption).
  assert (AC : forall k M i, k < nrUStep ps -> apply (uDim ps) M (control_at (uDim ps) U k) i = apply (uDim ps) M (control_at (uDim ps) U' k) i)
    by (intros; apply apply_ext_v; intros; apply control_at_ext; assumption).
  assert (AU : forall M i, apply (fullUDim ps) M U i = apply (fullUDim ps) M U' i) by (intros; apply apply_ext_v; assumption).
  destruct d as [M p|M p|M p|M Nm p]; cbn [cost_value]; unfold traj_cost, target_cost, ctrl_cost, mixed_cost;
    repeat (match goal with |- context [if ?b then _ else _] => destruct b end);
    try (apply sum_ext; intros k Hk); apply wsq_ext; intros i Hi; try reflexivity.
  - rewrite AS by lia. reflexivity.
  - rewrite AT. reflexivity.
  - rewrite AS by lia. reflexivity.
  - rewrite AC by lia. reflexivity.
  - rewrite AU. reflexivity.
  - rewrite AS, AC by lia. reflexivity.
  - rewrite AT, AU. reflexivity.
Qed.
End Ext.
Lemma imposes_ext ps x x' U U' d : ready ps -> (forall i, i < xDim ps -> x i = x' i) -> (forall j, j < fullUDim ps -> U j = U' j) ->
  (imposes ps d x U <-> imposes ps d x' U').
Proof. intros R Hx HU. split; apply imposes_ext1; auto; intros; symmetry; auto. Qed.

(** ** Systems with the same data *)
Lemma alike_stacked_k p q x U k : ps_alike p q -> state_of p x U k = state_of q x U k. Proof. apply alike_state. Qed.
Lemma imposes_alike_ps p q d x U : ps_alike p q -> (imposes p d x U <-> imposes q d x U).
Proof.
  intro A. assert (Q := A). destruct Q as [[X [Y [Nu [Nx [FX FU]]]]] _].
  assert (S : state_of p x U = state_of q x U) by (destruct A as [_ [HA [HB [Hd _]]]]; unfold state_of; rewrite X, Y, HA, HB, Hd; reflexivity).
  assert (T : stacked_state p x U = stacked_state q x U) by (apply alike_stacked; exact A).
  destruct d; cbn [imposes means]; unfold traj_means, ctrl_means, mixed_means, traj_below_both, ctrl_between;
    rewrite ?X, ?Y, ?Nu, ?Nx, ?FX, ?FU, ?S, ?T; reflexivity.
Qed.
Lemma cost_value_alike_ps p q d w x U : ps_alike p q -> cost_value p d w x U = cost_value q d w x U.
Proof.
  intro A. assert (Q := A). destruct Q as [[X [Y [Nu [Nx [FX FU]]]]] _].
  assert (S : state_of p x U = state_of q x U) by (destruct A as [_ [HA [HB [Hd _]]]]; unfold state_of; rewrite X, Y, HA, HB, Hd; reflexivity).
  assert (T : stacked_state p x U = stacked_state q x U) by (apply alike_stacked; exact A).
  destruct d; cbn [cost_value]; unfold traj_cost, target_cost, ctrl_cost, mixed_cost;
    rewrite ?X, ?Y, ?Nu, ?Nx, ?FX, ?FU, ?S, ?T; reflexivity.
Qed.
