(** Tail.v -- what the constraints and the costs say before and after a step of the horizon. *)
From Coq Require Import Permutation.
From Verif Require Import Base Eigen Spec Preview SpecApi PreviewProofs AutoSpan AutoSpanProofs Constraints ConstraintProofs
  SpecConstraints ConstraintMeaning Checkers Costs SpecCosts CostProofs CostMeaning Properties_Costs Controller Registry SpecController Assembly
  Results Properties_Assembly Properties_Results SpecProtocol Protocol Properties_Protocol SpecEndToEnd SpanData Properties_Registry
  EndToEnd EndToEndQP EndToEndRows EndToEndMain Convex ExactSolver Properties_EndToEnd Determined StateExt SpecMeaning Meaning SpecTail.

(** the control from entry [r] on *)
Definition from (r : nat) (V : nat -> Qc) : nat -> Qc := fun j => V (r + j).
(** the first [r] entries of [a], then [b] *)
Definition glue (r : nat) (a b : nat -> Qc) : nat -> Qc := fun j => if j <? r then a j else b (j - r).
Lemma glue_low r a b j : j < r -> glue r a b j = a j.
Proof. intro H. unfold glue. destruct (Nat.ltb_spec j r) as [E|E]; [reflexivity|lia]. Qed.
Lemma glue_high r a b j : glue r a b (r + j) = b j.
Proof. unfold glue. destruct (Nat.ltb_spec (r + j) r) as [E|E]; [lia|]. f_equal. lia. Qed.

Lemma state_at_from n m A B d x V K k i :
  state_at n m A B d x V (K + k) i = state_at n m A B d (state_at n m A B d x V K) (from (K * m) V) k i.
Proof.
  revert i. induction k as [|k IH]; intro i; [rewrite Nat.add_0_r; reflexivity|]. rewrite Nat.add_succ_r. cbn [state_at]. f_equal. f_equal.
  - apply sum_ext. intros j _. rewrite IH. reflexivity.
  - apply sum_ext. intros j _. unfold from. f_equal. f_equal. lia.
Qed.

(** per step *)
Definition stepwise (ps : psys) (d : con_data) : Prop :=
  match d with
  | DTraj E _ _ => cols E = xDim ps
  | DCtrl G _ _ => cols G = uDim ps
  | DMixed E G _ _ => cols E = xDim ps /\ cols G = uDim ps
  | DTrajB lower _ => vsize lower = xDim ps
  | DCtrlB lower _ => vsize lower = uDim ps
  end.
Definition stepwise_cost (ps : psys) (d : cost_data) : Prop :=
  match d with
  | DTrajC M _ => cols M = xDim ps
  | DTargetC _ _ => True
  | DCtrlC N _ => cols N = uDim ps
  | DMixedC M N _ => cols M = xDim ps /\ cols N = uDim ps
  end.
(** what a per-step constraint says about step [k] *)
Definition at_step (ps : psys) (d : con_data) (x U : nat -> Qc) (k : nat) : Prop :=
  match d with
  | DTraj E f q => forall i, i < rows E -> cmp q (apply (xDim ps) (at_ E) (state_of ps x U k) i) (vget f i)
  | DCtrl G f q => forall i, i < rows G -> cmp q (apply (uDim ps) (at_ G) (control_at (uDim ps) U k) i) (vget f i)
  | DMixed E G f q => forall i, i < rows E ->
      cmp q (apply (xDim ps) (at_ E) (state_of ps x U k) i + apply (uDim ps) (at_ G) (control_at (uDim ps) U k) i)%Qc (vget f i)
  | DTrajB lower upper => below_both (xDim ps) lower upper (state_of ps x U k)
  | DCtrlB lower upper => within_bounds (uDim ps) (vget lower) (vget upper) (control_at (uDim ps) U k)
  end.
(** the number of steps it speaks of *)
Definition con_steps (ps : psys) (d : con_data) : nat := match d with DTraj _ _ _ | DTrajB _ _ => nrXStep ps | _ => nrUStep ps end.
Lemma imposes_steps ps d x U : stepwise ps d -> (imposes ps d x U <-> forall k, k < con_steps ps d -> at_step ps d x U k).
Proof.
  destruct d as [E f q|G f q|E G f q|lo up|lo up]; cbn [stepwise imposes means at_step con_steps].
  - intros S. unfold traj_means. rewrite S, Nat.eqb_refl. split; intros H k; [intros Hk i Hi|intros i Hk Hi]; apply H; assumption.
  - intros S. unfold ctrl_means. rewrite S, Nat.eqb_refl. split; intros H k; [intros Hk i Hi|intros i Hk Hi]; apply H; assumption.
  - intros [S1 S2]. unfold mixed_means. rewrite S1, S2, !Nat.eqb_refl. split; intros H k; [intros Hk i Hi|intros i Hk Hi]; apply H; assumption.
  - intros S. unfold traj_below_both. rewrite S, Nat.eqb_refl. reflexivity.
  - intros S. unfold ctrl_between. rewrite S, Nat.eqb_refl. reflexivity.
Qed.
(** the part of the value of a per-step cost due to step [k] *)
Definition cost_at (ps : psys) (d : cost_data) (w : vec Qc) (x U : nat -> Qc) (k : nat) : Qc :=
  match d with DTargetC _ _ => 0%Qc | _ => wsq (cost_lines d) (vget w) (resid ps d x U k) end.

Lemma wsq_ext n w f g : (forall i, i < n -> f i = g i) -> wsq n w f = wsq n w g.
Proof. intro H. unfold wsq. f_equal. apply sum_ext. intros. rewrite H by assumption. reflexivity. Qed.

Section Shorter.
Variables (p1 p2 : psys) (K : nat).
Hypotheses (R1 : ready p1) (R2 : ready p2) (SS : same_system p1 p2) (HK : nrUStep p1 = K + nrUStep p2).
Notation m := (uDim p1).
Lemma state_from x V k i : state_of p1 x V (K + k) i = state_of p2 (state_of p1 x V K) (from (K * m) V) k i.
Proof using All. destruct SS as [X [Y [HA [HB Hd]]]]. unfold state_of. rewrite state_at_from, X, Y, HA, HB, Hd. reflexivity. Qed.
Lemma control_from V k j : control_at m V (K + k) j = control_at (uDim p2) (from (K * m) V) k j.
Proof using All. destruct SS as [_ [Y _]]. unfold control_at, from. rewrite <- Y. f_equal. lia. Qed.
Lemma apply_state_from M x V k i : apply (xDim p1) M (state_of p1 x V (K + k)) i = apply (xDim p2) M (state_of p2 (state_of p1 x V K) (from (K * m) V) k) i.
Proof using All. destruct SS as [X _]. rewrite <- X. unfold apply. apply sum_ext. intros. rewrite state_from. reflexivity. Qed.
Lemma apply_control_from M V k i : apply m M (control_at m V (K + k)) i = apply (uDim p2) M (control_at (uDim p2) (from (K * m) V) k) i.
Proof using All. destruct SS as [_ [Y _]]. rewrite <- Y at 1. unfold apply. apply sum_ext. intros. rewrite control_from. reflexivity. Qed.

Lemma at_step_from d x V k : at_step p1 d x V (K + k) <-> at_step p2 d (state_of p1 x V K) (from (K * m) V) k.
Proof using All.
  destruct SS as [X [Y _]]. destruct d as [E f q|G f q|E G f q|lo up|lo up]; cbn [at_step].
  - split; intros H i Hi; specialize (H i Hi); rewrite apply_state_from in *; exact H.
  - split; intros H i Hi; specialize (H i Hi); rewrite apply_control_from in *; exact H.
  - split; intros H i Hi; specialize (H i Hi); rewrite apply_state_from, apply_control_from in *; exact H.
  - unfold below_both. rewrite <- X. split; intros H i Hi; specialize (H i Hi); rewrite state_from in *; exact H.
  - unfold within_bounds. rewrite <- Y. split; intros H i Hi; specialize (H i Hi); rewrite control_from in *; rewrite <- Y in *; exact H.
Qed.
Lemma con_steps_from d : con_steps p1 d = K + con_steps p2 d.
Proof using All. destruct d; cbn [con_steps]; rewrite ?(rd_nx _ R1), ?(rd_nx _ R2); lia. Qed.
Lemma stepwise_same d : stepwise p1 d -> stepwise p2 d.
Proof using All. destruct SS as [X [Y _]]. destruct d; cbn; rewrite ?X, ?Y; tauto. Qed.
Lemma imposes_from d x V : stepwise p1 d ->
  (imposes p1 d x V <-> (forall k, k < K -> at_step p1 d x V k) /\ imposes p2 d (state_of p1 x V K) (from (K * m) V)).
Proof using All.
  intro S. rewrite (imposes_steps p1 d x V S), (imposes_steps p2 d _ _ (stepwise_same d S)), con_steps_from. split.
  - intro H. split; intros k Hk; [apply H; lia|apply at_step_from, H; lia].
  - intros [H1 H2] k Hk. destruct (Nat.lt_ge_cases k K) as [L|L]; [apply H1; exact L|].
    replace k with (K + (k - K)) by lia. apply at_step_from, H2. lia.
Qed.

Lemma resid_from d x V k i : stepwise_cost p1 d -> match d with DTargetC _ _ => False | _ => True end ->
  resid p1 d x V (K + k) i = resid p2 d (state_of p1 x V K) (from (K * m) V) k i.
Proof using All.
  destruct SS as [X [Y _]]. destruct d as [M q|M q|N q|M N q]; cbn [stepwise_cost resid]; [|tauto| |].
  - intros S _. rewrite <- X, S, Nat.eqb_refl. rewrite apply_state_from, X. reflexivity.
  - intros S _. rewrite <- Y, S, Nat.eqb_refl. rewrite apply_control_from, Y. reflexivity.
  - intros [S1 S2] _. rewrite <- X, <- Y, S1, S2, !Nat.eqb_refl. cbn [andb]. rewrite apply_state_from, apply_control_from, X, Y. reflexivity.
Qed.
Lemma cost_from d w x V : stepwise_cost p1 d ->
  cost_value p1 d w x V = (sum K (cost_at p1 d w x V) + cost_value p2 d w (state_of p1 x V K) (from (K * m) V))%Qc.
Proof using All.
  intro S. rewrite !cost_value_resid. destruct d as [M q|M q|N q|M N q] eqn:Ed.
  2:{ cbn [cost_steps cost_at cost_lines]. rewrite sum_0, !sum1, Qcplus_0_l. apply wsq_ext. intros i _. unfold resid. rewrite HK, apply_state_from. reflexivity. }
  all: rewrite <- Ed; match goal with |- context [cost_steps p2 ?d0] => assert (C : cost_steps p1 d0 = K + cost_steps p2 d0) end.
  1,3,5: subst d; destruct SS as [X [Y _]]; cbn [cost_steps stepwise_cost] in *; rewrite <- ?X, <- ?Y;
    first [rewrite S, Nat.eqb_refl, (rd_nx _ R1), (rd_nx _ R2); lia|rewrite S, Nat.eqb_refl; lia|destruct S as [S1 S2]; rewrite S1, S2, !Nat.eqb_refl; cbn [andb]; lia].
  all: rewrite C, sum_plus; f_equal; [apply sum_ext; intros; subst d; reflexivity|]; apply sum_ext; intros k Hk; apply wsq_ext; intros i Hi;
    apply resid_from; [rewrite Ed; exact S|rewrite Ed; exact I].
Qed.
Lemma full_from : fullUDim p1 = K * m + fullUDim p2.
Proof using All. destruct SS as [_ [Y _]]. rewrite (rd_fu _ R1), (rd_fu _ R2), HK, <- Y. lia. Qed.
Lemma regularization_from V : regularization (fullUDim p1) V = (regularization (K * m) V + regularization (fullUDim p2) (from (K * m) V))%Qc.
Proof using All. unfold regularization, from. rewrite full_from, sum_plus. ring. Qed.
Lemma representable_from V : representable (fullUDim p1) V <-> representable (K * m) V /\ representable (fullUDim p2) (from (K * m) V).
Proof using All.
  unfold representable, within_bounds. rewrite full_from. split.
  - intro H. split; intros i Hi; apply H; lia.
  - intros [H1 H2] i Hi. destruct (Nat.lt_ge_cases i (K * m)) as [L|L]; [apply H1; exact L|].
    specialize (H2 (i - K * m) ltac:(lia)). unfold from in H2. replace (K * m + (i - K * m)) with i in H2 by lia. exact H2.
Qed.

(** the first K steps depend on the first controls only *)
Section Head.
Variables (x V V' : nat -> Qc).
Hypothesis HV : forall j, j < K * m -> V j = V' j.
Lemma state_head k i : k <= K -> i < xDim p1 -> state_of p1 x V k i = state_of p1 x V' k i.
Proof using All. intros Hk Hi. apply state_at_ext; [reflexivity| |exact Hi]. intros c Hc. apply HV. nia. Qed.
Lemma control_head k j : k < K -> j < m -> control_at m V k j = control_at m V' k j.
Proof using All. intros Hk Hj. apply HV. nia. Qed.
Lemma apply_state_head M k i : k <= K -> apply (xDim p1) M (state_of p1 x V k) i = apply (xDim p1) M (state_of p1 x V' k) i.
Proof using All. intros Hk. unfold apply. apply sum_ext. intros. rewrite state_head by assumption. reflexivity. Qed.
Lemma apply_control_head M k i : k < K -> apply m M (control_at m V k) i = apply m M (control_at m V' k) i.
Proof using All. intros Hk. unfold apply. apply sum_ext. intros. rewrite control_head by assumption. reflexivity. Qed.
Lemma at_step_head d k : k < K -> at_step p1 d x V k -> at_step p1 d x V' k.
Proof using All.
  intros Hk. destruct d as [E f q|G f q|E G f q|lo up|lo up]; cbn [at_step]; unfold below_both, within_bounds; intros H i Hi; specialize (H i Hi);
    rewrite ?apply_state_head, ?apply_control_head in H by lia; rewrite ?state_head, ?control_head in H by lia; exact H.
Qed.
Lemma cost_head d w k : stepwise_cost p1 d -> k < K -> cost_at p1 d w x V k = cost_at p1 d w x V' k.
Proof using All.
  intros S Hk. destruct d as [M q|M q|N q|M N q]; cbn [cost_at stepwise_cost] in *; [|reflexivity| |]; apply wsq_ext; intros i _; unfold resid.
  - rewrite S, Nat.eqb_refl, apply_state_head by lia. reflexivity.
  - rewrite S, Nat.eqb_refl, apply_control_head by lia. reflexivity.
  - destruct S as [-> ->]. rewrite !Nat.eqb_refl. cbn [andb]. rewrite apply_state_head, apply_control_head by lia. reflexivity.
Qed.
Lemma regularization_head : regularization (K * m) V = regularization (K * m) V'.
Proof using All. unfold regularization. do 2 f_equal. apply sum_ext. intros j Hj. rewrite HV by exact Hj. reflexivity. Qed.
End Head.

(** data that suits both horizons is per step *)
Lemma both_stepwise d : 1 <= K -> valid_shape p1 (new_con d) -> valid_shape p2 (new_con d) -> stepwise p1 d.
Proof using All.
  intros K1. pose proof full_from as FF. destruct SS as [X [Y _]].
  assert (FX1 : fullXDim p1 = xDim p1 * (K + nrUStep p2 + 1)) by (rewrite (rd_fx _ R1), (rd_nx _ R1), HK; reflexivity).
  assert (FX2 : fullXDim p2 = xDim p1 * (nrUStep p2 + 1)) by (rewrite (rd_fx _ R2), (rd_nx _ R2), X; reflexivity).
  assert (NE : fullXDim p1 = fullXDim p2 -> fullXDim p1 = xDim p1) by (rewrite FX1, FX2; intro; assert (xDim p1 = 0) by nia; nia).
  assert (NU : fullUDim p1 = fullUDim p2 -> fullUDim p1 = m).
  { intro Q. assert (m = 0) by nia. rewrite (rd_fu _ R1). nia. }
  destruct d; cbn; rewrite <- ?X, <- ?Y; intros V1 V2; repeat match goal with H : _ /\ _ |- _ => destruct H end;
    repeat match goal with H : _ \/ _ |- _ => destruct H end; repeat match goal with H : _ /\ _ |- _ => destruct H end; try split;
    first [congruence|transitivity (fullXDim p1); [congruence|apply NE; congruence]|transitivity (fullUDim p1); [congruence|apply NU; congruence]].
Qed.
Lemma both_stepwise_cost d : 1 <= K -> cost_fits p1 d -> cost_fits p2 d -> stepwise_cost p1 d.
Proof using All.
  intros K1. pose proof full_from as FF. destruct SS as [X [Y _]].
  assert (FX1 : fullXDim p1 = xDim p1 * (K + nrUStep p2 + 1)) by (rewrite (rd_fx _ R1), (rd_nx _ R1), HK; reflexivity).
  assert (FX2 : fullXDim p2 = xDim p1 * (nrUStep p2 + 1)) by (rewrite (rd_fx _ R2), (rd_nx _ R2), X; reflexivity).
  assert (NE : fullXDim p1 = fullXDim p2 -> fullXDim p1 = xDim p1) by (rewrite FX1, FX2; intro; assert (xDim p1 = 0) by nia; nia).
  assert (NU : fullUDim p1 = fullUDim p2 -> fullUDim p1 = m).
  { intro Q. assert (m = 0) by nia. rewrite (rd_fu _ R1). nia. }
  destruct d; cbn; rewrite <- ?X, <- ?Y; intros V1 V2; repeat match goal with H : _ /\ _ |- _ => destruct H end;
    repeat match goal with H : _ \/ _ |- _ => destruct H end; repeat match goal with H : _ /\ _ |- _ => destruct H end; try split;
    first [exact I|congruence|transitivity (fullXDim p1); [congruence|apply NE; congruence]|transitivity (fullUDim p1); [congruence|apply NU; congruence]].
Qed.
End Shorter.
