(** Close.v -- C73: strong convexity of the total cost, in terms of what the user gave. *)
From Verif Require Import Base Eigen Spec Preview SpecApi PreviewProofs AutoSpan AutoSpanProofs Constraints ConstraintProofs
  SpecConstraints ConstraintMeaning Checkers Costs SpecCosts CostProofs CostMeaning Properties_Costs Controller Registry SpecController Assembly
  Results SpecProtocol Protocol Properties_Protocol SpecEndToEnd SpanData Properties_Registry EndToEnd EndToEndQP EndToEndRows EndToEndMain
  Convex Determined StateExt InitialState SpecMeaning Meaning.
From Verif Require Import Floats SpecFloats FloatCosts SpecFloatCosts FloatController SpecFloatRun FloatProtocol FloatTrace FloatMeaning FloatValue FloatSolve Properties_FloatRun SpecFloatInitial FloatInitial SpecClose.
Open Scope nat_scope.
Open Scope list_scope.

(** the weights the user gave are never negative *)
Lemma spanned_rows d : cost_rows (spanned_cost d) = 0 <-> cost_rows d = 0.
Proof.
  assert (S0 : forall (n : nat) (p : vec Qc) p', vsize p <= n -> stretch_v n p = Some p' -> (vsize p' = 0 <-> vsize p = 0)).
  { intros n p p' Le. unfold stretch_v. destruct (Nat.eqb_spec (vsize p) n) as [E|E]; [intro H; assert (H' : p = p') by congruence; rewrite H'; reflexivity|].
    destruct (Nat.eqb_spec (n mod vsize p) 0) as [Q|Q]; [|discriminate]. intro H. assert (H' : copies n p = p') by congruence. rewrite <- H'. unfold copies. cbn [vsize].
    split; [lia|]. intro Z. rewrite Z in Q. cbn in Q. lia. }
  destruct d as [M p|M p|M p|M Nm p]; cbn [spanned_cost]; cbv zeta; [| reflexivity | | ].
  - destruct (stretch_m _ 0 M); [|reflexivity]. destruct (stretch_v _ p) as [p'|] eqn:E; [|reflexivity]. unfold cost_rows. eapply S0; [|exact E]. lia.
  - destruct (stretch_m _ 0 M); [|reflexivity]. destruct (stretch_v _ p) as [p'|] eqn:E; [|reflexivity]. unfold cost_rows. eapply S0; [|exact E]. lia.
  - destruct (stretch_m _ 1 M); [|reflexivity]. destruct (stretch_m _ 0 Nm); [|reflexivity].
    destruct (stretch_v _ p) as [p'|] eqn:E; [|reflexivity]. unfold cost_rows. eapply S0; [|exact E]. lia.
Qed.
Lemma weights_after_nonneg d i h cur : nonneg_weights h -> (vsize cur = 0 -> cost_rows d = 0) -> (forall r, r < vsize cur -> (0 <= vget cur r)%Qc) ->
  forall r, r < vsize (fold_left (weights_after_call d i) h cur) -> (0 <= vget (fold_left (weights_after_call d i) h cur) r)%Qc.
Proof.
  revert cur. induction h as [|o h IH]; intros cur NW Z C; [exact C|]. cbn [fold_left].
  assert (NW' : nonneg_weights h) by (destruct NW as [W1 W2]; split; [intros j x H; apply (W1 j); right; exact H|intros j v H; apply (W2 j); right; exact H]).
  destruct NW as [W1 W2].
  assert (K : (vsize (weights_after_call d i cur o) = 0 -> cost_rows d = 0) /\
     forall r, r < vsize (weights_after_call d i cur o) -> (0 <= vget (weights_after_call d i cur o) r)%Qc).
  { destruct o as [| | | | | | | |j k|k v|k x| | | | | | | | | | | |] eqn:Eo; try (split; [exact Z|exact C]); cbn [weights_after_call];
      match goal with |- context [Nat.eqb ?a ?b] => destruct (Nat.eqb_spec a b) as [Eab|Eab]; [|split; [exact Z|exact C]] end; rewrite <- Eo in *.
    - unfold copies. cbn [vsize vget]. split; [apply spanned_rows|]. intros r Hr. apply C. destruct (vsize cur) as [|s] eqn:Es; [|apply Nat.mod_upper_bound; lia].
      specialize (Z eq_refl). apply spanned_rows in Z. lia.
    - unfold weights_given. destruct (Nat.eqb_spec (vsize cur mod vsize v) 0) as [Q|Q]; [|split; assumption]. cbn [vsize vget]. split; [exact Z|]. intros r Hr.
      apply (W2 k v); [left; congruence|]. destruct (vsize v) as [|s]; [cbn in Q; lia|]. apply Nat.mod_upper_bound. lia.
    - cbn [vsize vget vconst]. split; [exact Z|]. intros r Hr. apply (W1 k x). left. congruence. }
  apply IH; [exact NW'|apply K|apply K].
Qed.
Lemma weights_of_nonneg h i r : nonneg_weights h -> r < vsize (weights_of h i) -> (0 <= vget (weights_of h i) r)%Qc.
Proof.
  intros NW. unfold weights_of. destruct (nth_error (new_costs h) i) as [d|]; [|cbn; lia].
  apply weights_after_nonneg; [exact NW|cbn; auto|]. intros s _. cbn. apply qleb_ok. reflexivity.
Qed.

(** ** A control that costs little more than the best one is close to it *)
Lemma value_close ps h l x U V e : ps_wf ps ->
  (forall i d, In i l -> cost_data_of h i = Some d -> forall r, r < cost_lines d -> (0 <= vget (weights_of h i) r)%Qc) ->
  (value_from ps h l x U <= value_from ps h l x V + e)%Qc ->
  (value_from ps h l x V <= value_from ps h l x (fun i => half * (U i + V i))%Qc)%Qc ->
  (q1em6 * distance2 (fullUDim ps) U V <= (1 + 1 + 1 + 1) * e)%Qc.
Proof.
  intros W NW L1 L2.
  assert (HH : (1 - half = half)%Qc) by (apply Qc_is_canon; reflexivity).
  assert (E : value_from ps h l (mix half x x) (mix half U V) = value_from ps h l x (fun i => half * (U i + V i))%Qc).
  { unfold value_from, total_cost_from, regularization. f_equal.
    - apply lsum_ext. intros i _. destruct (cost_data_of h i) as [d|]; [|reflexivity].
      apply cost_value_ext; [exact W|intros j _; unfold mix; ring|intros j _; unfold mix; rewrite HH; ring].
    - do 2 f_equal. apply sum_ext. intros j _. unfold mix. rewrite HH. ring. }
  rewrite <- E, value_mix, HH in L2. unfold value_gap in L2.
  assert (A : (0 <= lsum l (fun i => match cost_data_of h i with Some d => gap ps d (weights_of h i) x U x V | None => 0 end))%Qc).
  { apply lsum_nonneg. intros i Hi. destruct (cost_data_of h i) as [d|] eqn:Ed; [|apply Qcle_refl]. apply gap_nonneg. exact (NW i d Hi Ed). }
  assert (D : wsq (fullUDim ps) (fun _ => q1em6) (fun i => U i - V i)%Qc = (half * (q1em6 * distance2 (fullUDim ps) U V))%Qc).
  { unfold wsq, distance2. f_equal. rewrite <- sum_scal_l. apply sum_ext. intros. ring. }
  rewrite D in L2. revert L1 L2 A. generalize (lsum l (fun i => match cost_data_of h i with Some d => gap ps d (weights_of h i) x U x V | None => 0 end))%Qc.
  generalize (q1em6 * distance2 (fullUDim ps) U V)%Qc (value_from ps h l x U) (value_from ps h l x V).
  clear. intros q a b g. unfold half. qc_lra.
Qed.

(** ** Constraints on the controls alone *)
Lemma ctrl_row_imposes ps d x U s u : match d with DCtrl _ _ _ | DCtrlB _ _ => True | _ => False end ->
  (each_row ps d x U (met u s 0%Qc) <-> imposes ps d x U).
Proof.
  assert (T : forall q a e, met u s 0%Qc 0 q a e 0%Qc <-> cmp q a e).
  { intros q a e. unfold met. rewrite <- meets_0. match goal with |- meets ?a _ _ _ <-> _ => replace a with 0%Qc end; [reflexivity|].
    unfold growth. cbn [Qcpower]. ring. }
  assert (B : forall (lo up : ext) (l : Qc), (cmp true (- l) (ext_opp lo) /\ cmp true l up) <-> (ext_le_q lo l /\ q_le_ext l up)).
  { intros a b l. cbn. destruct a as [|a|]; cbn; try tauto. split; intros [H1 H2]; (split; [revert H1; qc_lra|exact H2]). }
  destruct d as [E f q|G f q|E G f q|lo up|lo up]; intro K; try contradiction K; cbn [each_row imposes means].
  - unfold ctrl_means. destruct (Nat.eqb (cols G) (uDim ps)).
    + split; intros H k i Hk Hi; apply T, H; assumption.
    + split; intros H i Hi; apply T, H; assumption.
  - unfold ctrl_between, within_bounds. destruct (Nat.eqb (vsize lo) (uDim ps)); split; intros H k.
    + intros Hk i Hi. apply B. destruct (H k i Hk Hi) as [H1 H2]. split; apply T; assumption.
    + intros i Hk Hi. destruct (proj2 (B _ _ _) (H k Hk i Hi)) as [H1 H2]. split; apply T; assumption.
    + intro Hk. apply B. destruct (H k Hk) as [H1 H2]. split; apply T; assumption.
    + intro Hk. destruct (proj2 (B _ _ _) (H k Hk)) as [H1 H2]. split; apply T; assumption.
Qed.
Lemma ctrl_imposes_mid ps d x U V : match d with DCtrl _ _ _ | DCtrlB _ _ => True | _ => False end ->
  imposes ps d x U -> imposes ps d x V -> imposes ps d x (fun i => half * (U i + V i))%Qc.
Proof.
  destruct d as [E f q|G f q|E G f q|lo up|lo up]; intro K; try contradiction K; cbn [imposes means]; unfold ctrl_means, ctrl_between.
  - destruct (Nat.eqb (cols G) (uDim ps)); intros H1 H2.
    + intros k i Hk Hi. change (control_at (uDim ps) (fun i => half * (U i + V i))%Qc k) with (mid (control_at (uDim ps) U k) (control_at (uDim ps) V k)).
      rewrite apply_mid. apply cmp_mid; auto.
    + intros i Hi. change (fun i => half * (U i + V i))%Qc with (mid U V). rewrite apply_mid. apply cmp_mid; auto.
  - destruct (Nat.eqb (vsize lo) (uDim ps)); intros H1 H2.
    + intros k Hk. apply (within_mid (uDim ps) _ _ (control_at (uDim ps) U k) (control_at (uDim ps) V k)); auto.
    + apply within_mid; assumption.
Qed.
(** ** The answer is representable when no bound is registered *)
Lemma fs_representable u F reg n m N h w p e b w' : accurate u F -> sizes_fit n m N ->
  f_follows_protocol F reg n m N world0 h -> f_callable F reg world0 h -> f_honest F reg world0 h ->
  f_run F reg world0 h = Some w -> m_ps (ctl w) = Some p -> m_is (ctl w) = None -> f_solve F reg e w = Some (b, w') ->
  (forall i, In i (spC (ctl w)) -> even_bounds h i) ->
  spB (ctl w) = [] -> f_stale F reg world0 false h = false ->
  forall V, feasible (m_qp (ctl w')) V -> representable (fullUDim (wps w' p)) V.
Proof.
  intros Ac SF FP CA HO RE Ep NI So NS Es St V FV. apply feasible_close in FV.
  apply (fs_close u F Ac reg n m N SF h w p e b w' FP CA HO RE Ep NI So 0%Qc V NS) in FV. destruct FV as [_ FV]. specialize (FV Es).
  pose proof (fs_asm u F Ac reg n m N SF h w p e b w' FP CA HO RE Ep NI So) as A.
  destruct (f_free_inv u F Ac reg n m N SF h w FP CA HO RE (fa_is _ _ _ _ _ _ _ _ _ _ A) St) as [F1 F2].
  pose proof (fa_sized _ _ _ _ _ _ _ _ _ _ A) as [_ [_ [_ [Y1 Y2]]]].
  intros k Hk. destruct (FV k ltac:(lia)) as [M1 M2]. rewrite F1 in M1 by lia. rewrite F2 in M2 by lia.
  split; [apply meets_opp; exact M1|]. apply meets_0 in M2. exact M2.
Qed.
(** ** Systems with the same data *)
Lemma alike_imposed p q h l U : ps_alike p q -> (all_imposed p h l U <-> all_imposed q h l U).
Proof.
  intro A. pose proof A as [_ [_ [_ [_ X]]]]. unfold all_imposed. rewrite X.
  split; intros H i d Hi Ed; apply (imposes_alike_ps p q d _ U A), (H i d Hi Ed).
Qed.
Lemma alike_total p q h l U : ps_alike p q -> total_cost p h l U = total_cost q h l U.
Proof.
  intro A. pose proof A as [_ [_ [_ [_ X]]]]. unfold total_cost. rewrite X. apply lsum_ext. intros i _.
  destruct (cost_data_of h i) as [d|]; [|reflexivity]. apply cost_value_alike_ps. exact A.
Qed.
