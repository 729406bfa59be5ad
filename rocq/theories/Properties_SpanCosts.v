(** Properties_SpanCosts.v -- C24, C26 (costs): autoSpan of the cost functions. *)
From Verif Require Import Base Eigen Spec Preview SpecApi AutoSpan Constraints SpecConstraints Costs SpecCosts
  PreviewProofs AutoSpanProofs SpanMeaning ConstraintProofs ConstraintMeaning CostProofs CostMeaning Checkers
  Properties_SpanConstraints Properties_Costs.

Lemma wsq_blocks n q w v :
  wsq (n * q) w v = sum q (fun k => wsq n (fun i => w (k * n + i)%nat) (fun i => v (k * n + i)%nat)).
Proof.
  unfold wsq. rewrite sum_scal_l. f_equal. rewrite Nat.mul_comm. rewrite sum_blocks. reflexivity.
Qed.
Lemma wsq_ext n w w' v v' : (forall i, i < n -> w i = w' i) -> (forall i, i < n -> v i = v' i) -> wsq n w v = wsq n w' v'.
Proof. intros H G. unfold wsq. f_equal. apply sum_ext; intros i Hi. rewrite H, G by exact Hi. reflexivity. Qed.

(** the object is initialized and updated once with its own weights *)
Lemma cost_value_once j c0 ps c1 : kfull c0 = false -> vsize (kw c0) = vsize (kp c0) -> ready ps ->
  initializeCost j ps c0 = Ok c1 ->
  exists c2, k_update ps c1 = Some c2 /\ k_exact ps c2 /\
    forall U, objective (fullUDim ps) (at_ (kQ c2)) (vget (kc c2)) U
      = (doc_cost ps c0 (vget (x0 ps)) U - doc_cost ps c0 (vget (x0 ps)) (fun _ => 0))%Qc.
Proof.
  intros F W R I. destruct (k_init_ok j ps c0 c1 (conj F W) I) as [_ [_ [_ [_ [I5 _]]]]].
  destruct (cost_value_gen j c0 ps [] (kw c0) ps c1 (conj F W) I) as [c2 [E [_ [_ [_ [_ [_ [_ [_ [X V]]]]]]]]]].
  - constructor; [|constructor]. cbn. split; [exact W|]. split; [exact R|repeat split].
  - left. reflexivity.
  - exists c2. cbn [app k_updates] in E. rewrite <- I5, k_set_w_id in E.
    destruct (k_update ps c1) as [c|]; [cbn [obind] in E; injection E as ->|discriminate E].
    split; [reflexivity|]. split; [exact X|]. rewrite k_set_w_id in V. exact V.
Qed.

(** ** C24.  Every operand is given per step ([n] rows) or over the horizon ([n*q] rows).  The value is the sum over
    the steps, with the per-step data used at each step ([part], [vpart] of SpecApi.v). *)
Section value.
Variables (ps : psys) (n q : nat).
Definition span_cost (p w : vec Qc) (lhs : (nat -> Qc) -> nat -> nat -> Qc) (U : nat -> Qc) : Qc :=
  sum q (fun k => wsq n (fun i => vpart n w k i) (fun i => lhs U k i - vpart n p k i)%Qc).
End value.

Lemma init_ok_of_valid_cost j ps c : valid_cost_shape ps c -> exists c1, initializeCost j ps c = Ok c1.
Proof. intro V. destruct (proj1 (C22_initialize j ps c) V) as [c1 [E _]]. eauto. Qed.

Theorem C24_autoSpan_trajectory : forall j j' M p w ps n,
  let q := nrXStep ps in
  ready ps -> 1 <= n -> 1 <= xDim ps ->
  step_mx n (xDim ps) M \/ full_mx n (xDim ps) q 0 M ->
  vsize p = n \/ vsize p = n * q -> vsize w = vsize p -> rows M = n * q \/ vsize p = n * q ->
  exists c0 c1 c2, k_autoSpan j (set_w (mkTrajC M p) w) = Ok c0 /\
    initializeCost j' ps c0 = Ok c1 /\ k_update ps c1 = Some c2 /\ symmetric (fullUDim ps) (at_ (kQ c2)) /\
    let value := span_cost n q p w (fun U k i => part n (xDim ps) q 0 M (stacked_state ps (vget (x0 ps)) U) k i) in
    forall U, objective (fullUDim ps) (at_ (kQ c2)) (vget (kc c2)) U = (value U - value (fun _ => 0))%Qc.
Proof.
  intros j j' M p w ps n q R Hn Hx HM Hp Hw Hm.
  assert (Hq : 2 <= q) by (unfold q; rewrite (rd_nx ps R); pose proof (rd_nu ps R); lia).
  destruct (span_part M n (xDim ps) q 0 Hn Hq HM) as [M' [SM [RM [CM MM]]]].
  destruct (span_vpart (jvec j 0) p n q Hn ltac:(lia) Hp) as [p' [Sp [Vp Mp]]].
  rewrite <- Hw in Hp. destruct (span_vpart (jvec j 1) w n q Hn ltac:(lia) Hp) as [w' [Sw [Vw Mw]]].
  assert (HrM : rows M = n \/ rows M = n * q) by (destruct HM as [[H _]|[H _]]; auto).
  assert (Hmax : Nat.max (rows M) (Nat.max (vsize w) (vsize p)) = n * q) by nia.
  rewrite Nat.add_0_r in CM, MM.
  exists (set_w (mkTrajC M' p') w').
  assert (CF : cols M' = fullXDim ps) by (rewrite CM, (rd_fx ps R); reflexivity).
  assert (CN : Nat.eqb (cols M') (xDim ps) = false) by (apply Nat.eqb_neq; rewrite CM; nia).
  destruct (init_ok_of_valid_cost j' ps (set_w (mkTrajC M' p') w')) as [c1 I1].
  { cbn. split; [congruence|right; exact CF]. }
  destruct (cost_value_once j' (set_w (mkTrajC M' p') w') ps c1) as [c2 [U2 [X V]]];
    [reflexivity|cbn; congruence|exact R|exact I1|].
  exists c1, c2. split.
  { cbn. unfold trajC_autoSpan. cbn [kM kw kp set_w set_data mkTrajC]. unfold zmax. rewrite Hmax. cbn in SM. rewrite SM.
    unfold span_pw. cbn [kp kw set_w set_data mkTrajC]. rewrite Sp, Sw. reflexivity. }
  split; [exact I1|]. split; [exact U2|]. split; [exact (k_exact_sym ps c2 X)|].
  assert (Val : forall U, traj_cost ps M' p' w' (vget (x0 ps)) U =
    span_cost n q p w (fun U k i => part n (xDim ps) q 0 M (stacked_state ps (vget (x0 ps)) U) k i) U).
  { intro U. unfold traj_cost, span_cost. rewrite CN, RM, wsq_blocks. apply sum_ext; intros k Hk.
    apply wsq_ext; intros i Hi; [apply Mw; assumption|]. rewrite <- CF, CM, MM, Mp by assumption. reflexivity. }
  cbv zeta. intro U. rewrite V. cbn [doc_cost kk kM kp kw set_w set_data mkTrajC]. rewrite !Val. reflexivity.
Qed.
Print Assumptions C24_autoSpan_trajectory.

Theorem C24_autoSpan_control : forall j j' N p w ps n,
  let q := nrUStep ps in
  ready ps -> 1 <= n -> 1 <= uDim ps ->
  step_mx n (uDim ps) N \/ full_mx n (uDim ps) q 0 N ->
  vsize p = n \/ vsize p = n * q -> vsize w = vsize p -> rows N = n * q \/ vsize p = n * q ->
  exists c0 c1 c2, k_autoSpan j (set_w (mkCtrlC N p) w) = Ok c0 /\
    initializeCost j' ps c0 = Ok c1 /\ k_update ps c1 = Some c2 /\ symmetric (fullUDim ps) (at_ (kQ c2)) /\
    let value := span_cost n q p w (fun U k i => part n (uDim ps) q 0 N U k i) in
    forall U, objective (fullUDim ps) (at_ (kQ c2)) (vget (kc c2)) U = (value U - value (fun _ => 0))%Qc.
Proof.
  intros j j' N p w ps n q R Hn Hx HN Hp Hw Hm.
  assert (Hq : 1 <= q) by apply (rd_nu ps R).
  assert (EqF : fullUDim ps = uDim ps * q) by apply (rd_fu ps R).
  assert (HrN : rows N = n \/ rows N = n * q) by (destruct HN as [[H _]|[H _]]; auto).
  assert (Hp' : vsize w = n \/ vsize w = n * q) by (rewrite Hw; exact Hp).
  assert (Hmax : Nat.max (rows N) (Nat.max (vsize w) (vsize p)) = n * q) by nia.
  destruct (span_vpart (jvec j 0) p n q Hn Hq Hp) as [p' [Sp [Vp Mp]]].
  destruct (span_vpart (jvec j 1) w n q Hn Hq Hp') as [w' [Sw [Vw Mw]]].
  assert (P : exists N', spanMatrix N (Z.of_nat (n * q)) 0 = Ok N' /\ rows N' = n * q /\ cols N' = uDim ps * q /\
     (forall v k i, k < q -> i < n -> apply (uDim ps * q) (at_ N') v (k * n + i) = part n (uDim ps) q 0 N v k i)).
  { destruct (Nat.eq_dec q 1) as [Q1|Q1].
    - exists N. rewrite Q1 in *. rewrite Nat.mul_1_r in *.
      assert (R1 : rows N = n) by tauto. assert (C1 : cols N = uDim ps) by (destruct HN as [[_ H]|[_ H]]; [exact H|rewrite H; lia]).
      split; [rewrite <- R1; apply spanMatrix_same|]. split; [exact R1|]. split; [lia|].
      intros v k i Hk Hi. assert (k = 0) by lia. subst k. unfold part. rewrite C1, Nat.eqb_refl. rewrite Nat.mul_1_r. reflexivity.
    - destruct (span_part N n (uDim ps) q 0 Hn ltac:(lia) HN) as [N' [SN [RN [CN MN]]]].
      rewrite Nat.add_0_r in CN, MN. exists N'. auto. }
  destruct P as [N' [SN [RN [CN MN]]]].
  exists (set_w (mkCtrlC N' p') w').
  destruct (init_ok_of_valid_cost j' ps (set_w (mkCtrlC N' p') w')) as [c1 I1].
  { cbn. split; [congruence|right; congruence]. }
  destruct (cost_value_once j' (set_w (mkCtrlC N' p') w') ps c1) as [c2 [U2 [X V]]];
    [reflexivity|cbn; congruence|exact R|exact I1|].
  exists c1, c2. split.
  { cbn. unfold ctrlC_autoSpan. cbn [kN kw kp set_w set_data mkCtrlC]. unfold zmax. rewrite Hmax, SN.
    unfold span_pw. cbn [kp kw set_w set_data mkCtrlC]. rewrite Sp, Sw. reflexivity. }
  split; [exact I1|]. split; [exact U2|]. split; [exact (k_exact_sym ps c2 X)|].
  assert (Val : forall U, ctrl_cost ps N' p' w' U = span_cost n q p w (fun U k i => part n (uDim ps) q 0 N U k i) U).
  { intro U. unfold ctrl_cost, span_cost. fold q. rewrite RN. destruct (Nat.eqb_spec (cols N') (uDim ps)) as [E|E].
    - rewrite CN in E. assert (Q1 : q = 1) by nia. apply sum_ext; intros k Hk. assert (k = 0) by lia. subst k.
      replace (n * q) with n by nia. apply wsq_ext; intros i Hi; [rewrite <- Mw by (lia || exact Hi); reflexivity|].
      rewrite <- Mp by (lia || exact Hi). rewrite <- MN by (lia || exact Hi).
      replace (uDim ps * q) with (uDim ps) by nia. reflexivity.
    - rewrite EqF, wsq_blocks. apply sum_ext; intros k Hk.
      apply wsq_ext; intros i Hi; [apply Mw; assumption|]. rewrite MN, Mp by assumption. reflexivity. }
  cbv zeta. intro U. rewrite V. cbn [doc_cost kk kN kp kw set_w set_data mkCtrlC]. rewrite !Val. reflexivity.
Qed.
Print Assumptions C24_autoSpan_control.

Theorem C24_autoSpan_mixed : forall j j' M N p w ps n,
  let q := nrUStep ps in
  ready ps -> 1 <= n -> 1 <= xDim ps ->
  step_mx n (xDim ps) M \/ full_mx n (xDim ps) q 1 M -> step_mx n (uDim ps) N \/ full_mx n (uDim ps) q 0 N ->
  vsize p = n \/ vsize p = n * q -> vsize w = vsize p -> rows M = n * q \/ rows N = n * q \/ vsize p = n * q ->
  exists c0 c1 c2, k_autoSpan j (set_w (mkMixedC M N p) w) = Ok c0 /\
    initializeCost j' ps c0 = Ok c1 /\ k_update ps c1 = Some c2 /\ symmetric (fullUDim ps) (at_ (kQ c2)) /\
    let value := span_cost n q p w (fun U k i => part n (xDim ps) q 1 M (stacked_state ps (vget (x0 ps)) U) k i
                                                 + part n (uDim ps) q 0 N U k i)%Qc in
    forall U, objective (fullUDim ps) (at_ (kQ c2)) (vget (kc c2)) U = (value U - value (fun _ => 0))%Qc.
Proof.
  intros j j' M N p w ps n q R Hn Hx HM HN Hp Hw Hm.
  assert (Hq : 1 <= q) by apply (rd_nu ps R).
  assert (EqF : fullUDim ps = uDim ps * q) by apply (rd_fu ps R).
  assert (EqX : fullXDim ps = xDim ps * (q + 1)) by (rewrite (rd_fx ps R), (rd_nx ps R); reflexivity).
  assert (HrM : rows M = n \/ rows M = n * q) by (destruct HM as [[H _]|[H _]]; auto).
  assert (HrN : rows N = n \/ rows N = n * q) by (destruct HN as [[H _]|[H _]]; auto).
  assert (Hp' : vsize w = n \/ vsize w = n * q) by (rewrite Hw; exact Hp).
  assert (Hmax : Nat.max (rows M) (Nat.max (rows N) (Nat.max (vsize w) (vsize p))) = n * q) by nia.
  destruct (span_vpart (jvec j 0) p n q Hn Hq Hp) as [p' [Sp [Vp Mp]]].
  destruct (span_vpart (jvec j 1) w n q Hn Hq Hp') as [w' [Sw [Vw Mw]]].
  assert (P : exists M' N', spanMatrix M (Z.of_nat (n * q)) 1 = Ok M' /\ spanMatrix N (Z.of_nat (n * q)) 0 = Ok N' /\
     rows M' = n * q /\ rows N' = n * q /\ cols N' = uDim ps * q /\
     (cols M' = xDim ps * (q + 1) /\
      (forall v k i, k < q -> i < n -> apply (xDim ps * (q + 1)) (at_ M') v (k * n + i) = part n (xDim ps) q 1 M v k i)
      \/ q = 1 /\ cols M' = xDim ps /\ M' = M) /\
     (forall v k i, k < q -> i < n -> apply (uDim ps * q) (at_ N') v (k * n + i) = part n (uDim ps) q 0 N v k i)).
  { destruct (Nat.eq_dec q 1) as [Q1|Q1].
    - exists M, N. rewrite Q1 in *. rewrite Nat.mul_1_r in *.
      assert (R1 : rows N = n) by tauto. assert (C1 : cols N = uDim ps) by (destruct HN as [[_ H]|[_ H]]; [exact H|rewrite H; lia]).
      assert (R2 : rows M = n) by tauto.
      split; [rewrite <- R2; apply spanMatrix_same|]. split; [rewrite <- R1; apply spanMatrix_same|].
      split; [exact R2|]. split; [exact R1|]. split; [lia|]. split.
      + destruct HM as [[_ H]|[_ H]]; [right; auto|left]. split; [exact H|].
        intros v k i Hk Hi. assert (k = 0) by lia. subst k. unfold part.
        destruct (Nat.eqb_spec (cols M) (xDim ps)) as [E|E]; [rewrite H in E; nia|]. reflexivity.
      + intros v k i Hk Hi. assert (k = 0) by lia. subst k. unfold part. rewrite C1, Nat.eqb_refl. rewrite Nat.mul_1_r. reflexivity.
    - destruct (span_part N n (uDim ps) q 0 Hn ltac:(lia) HN) as [N' [SN [RN [CN MN]]]].
      destruct (span_part M n (xDim ps) q 1 Hn ltac:(lia) HM) as [M' [SM [RM [CM MM]]]].
      rewrite Nat.add_0_r in CN, MN. exists M', N'. auto 10. }
  destruct P as [M' [N' [SM [SN [RM [RN [CN [MM MN]]]]]]]].
  exists (set_w (mkMixedC M' N' p') w').
  destruct (init_ok_of_valid_cost j' ps (set_w (mkMixedC M' N' p') w')) as [c1 I1].
  { cbn. split; [congruence|]. split; [congruence|]. destruct MM as [[CM _]|[Q1 [CM _]]].
    - right. split; congruence.
    - left. split; [exact CM|]. rewrite CN, Q1. lia. }
  destruct (cost_value_once j' (set_w (mkMixedC M' N' p') w') ps c1) as [c2 [U2 [X V]]];
    [reflexivity|cbn; congruence|exact R|exact I1|].
  exists c1, c2. split.
  { cbn. unfold mixedC_autoSpan. cbn [kM kN kw kp set_w set_data mkMixedC]. unfold zmax. rewrite Hmax, SM, SN.
    unfold span_pw. cbn [kp kw set_w set_data mkMixedC]. rewrite Sp, Sw. reflexivity. }
  split; [exact I1|]. split; [exact U2|]. split; [exact (k_exact_sym ps c2 X)|].
  assert (Val : forall U, mixed_cost ps M' N' p' w' (vget (x0 ps)) U =
    span_cost n q p w (fun U k i => part n (xDim ps) q 1 M (stacked_state ps (vget (x0 ps)) U) k i
                                    + part n (uDim ps) q 0 N U k i)%Qc U).
  { intro U. unfold mixed_cost, span_cost. fold q. rewrite RM. destruct MM as [[CM MM]|[Q1 [CM ->]]].
    - destruct (Nat.eqb_spec (cols M') (xDim ps)) as [E|E]; [rewrite CM in E; nia|]. cbn [andb].
      rewrite EqX, EqF, wsq_blocks. apply sum_ext; intros k Hk.
      apply wsq_ext; intros i Hi; [apply Mw; assumption|]. rewrite MM, MN, Mp by assumption. reflexivity.
    - assert (CN1 : cols N' = uDim ps) by (rewrite CN, Q1; lia).
      rewrite CM, CN1, !Nat.eqb_refl. cbn [andb]. apply sum_ext; intros k Hk. assert (k = 0) by lia. subst k.
      replace (n * q) with n by nia. apply wsq_ext; intros i Hi; [rewrite <- Mw by (lia || exact Hi); reflexivity|].
      rewrite <- Mp by (lia || exact Hi). rewrite <- MN by (lia || exact Hi).
      unfold part. rewrite CM, Nat.eqb_refl. replace (uDim ps * q) with (uDim ps) by nia. f_equal. f_equal. unfold apply. apply sum_ext; intros a Ha.
      unfold stacked_state. cbn [Nat.mul Nat.add]. rewrite Nat.div_small, Nat.mod_small by exact Ha. reflexivity. }
  cbv zeta. intro U. rewrite V. cbn [doc_cost kk kM kN kp kw set_w set_data mkMixedC]. rewrite !Val. reflexivity.
Qed.
Print Assumptions C24_autoSpan_mixed.

(** ** C24, second form: the target and weights repeated over the horizon give, through autoSpan, the Q and c of the
    per-step entry. *)
Definition repeats {T} (n q : nat) (full step : vec T) : Prop :=
  vsize step = n /\ vsize full = n * q /\ forall k i, k < q -> i < n -> vget full (k * n + i) = vget step i.

Lemma vpart_repeats {T} n q (f s : vec T) k i : 1 <= n -> repeats n q f s -> k < q -> i < n -> vpart n f k i = vget s i.
Proof.
  intros Hn [_ [H1 H2]] Hk Hi. unfold vpart. rewrite <- (H2 k i Hk Hi). destruct (Nat.eqb_spec (vsize f) n) as [E|E]; [|reflexivity].
  assert (q = 1) by nia. assert (k = 0) by lia. subst. reflexivity.
Qed.

(** the two objects, each initialized and updated once *)
Definition same_Q_c (j j' j'' : junk) (ps : psys) (spanned perstep : cost) : Prop :=
  exists c0 c1 c2 d1 d2, k_autoSpan j spanned = Ok c0 /\ initializeCost j' ps c0 = Ok c1 /\ k_update ps c1 = Some c2 /\
    initializeCost j'' ps perstep = Ok d1 /\ k_update ps d1 = Some d2 /\
    (forall i k, i < fullUDim ps -> k < fullUDim ps -> at_ (kQ c2) i k = at_ (kQ d2) i k) /\
    (forall k, k < fullUDim ps -> vget (kc c2) k = vget (kc d2) k).

Lemma same_Q_c_of j j' j'' ps sp st value c0 c1 c2 : ready ps ->
  kfull st = false -> vsize (kw st) = vsize (kp st) -> valid_cost_shape ps st ->
  k_autoSpan j sp = Ok c0 -> initializeCost j' ps c0 = Ok c1 -> k_update ps c1 = Some c2 ->
  symmetric (fullUDim ps) (at_ (kQ c2)) ->
  (forall U, objective (fullUDim ps) (at_ (kQ c2)) (vget (kc c2)) U = (value U - value (fun _ => 0%Qc))%Qc) ->
  (forall U, value U = doc_cost ps st (vget (x0 ps)) U) -> same_Q_c j j' j'' ps sp st.
Proof.
  intros R F W V E0 E1 E2 Sy H Hv. destruct (init_ok_of_valid_cost j'' ps st V) as [d1 I1].
  destruct (cost_value_once j'' st ps d1 F W R I1) as [d2 [U2 [X Vd]]].
  exists c0, c1, c2, d1, d2. repeat (split; [assumption|]).
  apply (objective_inj (fullUDim ps)); [exact Sy|exact (k_exact_sym ps d2 X)|].
  intro U. rewrite H, Vd, !Hv. reflexivity.
Qed.

Lemma part_state ps M x U n q ac k i : cols M = xDim ps -> part n (xDim ps) q ac M (stacked_state ps x U) k i
  = apply (xDim ps) (at_ M) (state_of ps x U k) i.
Proof.
  intro H. unfold part. rewrite H, Nat.eqb_refl. unfold apply. apply sum_ext; intros a Ha.
  unfold stacked_state. rewrite blk_quot, blk_rem by exact Ha. reflexivity.
Qed.

Theorem C24_same_as_per_step : forall j j' j'' ps n M N p w p' w',
  ready ps -> 1 <= n -> 1 <= xDim ps -> step_mx n (xDim ps) M -> step_mx n (uDim ps) N ->
  (repeats n (nrXStep ps) p' p -> repeats n (nrXStep ps) w' w ->
     same_Q_c j j' j'' ps (set_w (mkTrajC M p') w') (set_w (mkTrajC M p) w)) /\
  (1 <= uDim ps -> repeats n (nrUStep ps) p' p -> repeats n (nrUStep ps) w' w ->
     same_Q_c j j' j'' ps (set_w (mkCtrlC N p') w') (set_w (mkCtrlC N p) w)) /\
  (repeats n (nrUStep ps) p' p -> repeats n (nrUStep ps) w' w ->
     same_Q_c j j' j'' ps (set_w (mkMixedC M N p') w') (set_w (mkMixedC M N p) w)).
Proof.
  intros j j' j'' ps n M N p w p' w' R Hn Hx HM HN. pose proof HM as [RM CM]. pose proof HN as [RN CN].
  split; [|split].
  - intros Hp Hw. pose proof Hp as [P1 [P2 P3]]. pose proof Hw as [W1 [W2 W3]].
    destruct (C24_autoSpan_trajectory j j' M p' w' ps n R Hn Hx (or_introl HM) (or_intror P2) ltac:(congruence) (or_intror P2))
      as [c0 [c1 [c2 [E0 [E1 [E2 [Sy H]]]]]]].
    eapply same_Q_c_of; try eassumption; [reflexivity|cbn; congruence|cbn; split; [congruence|left; exact CM]|].
    intro U. cbn. unfold traj_cost, span_cost. rewrite CM, Nat.eqb_refl. apply sum_ext; intros k Hk.
    rewrite RM. apply wsq_ext; intros i Hi; [eapply vpart_repeats; eassumption|].
    rewrite part_state by exact CM. rewrite (vpart_repeats n _ p' p k i Hn Hp Hk Hi). reflexivity.
  - intros Hu Hp Hw. pose proof Hp as [P1 [P2 P3]]. pose proof Hw as [W1 [W2 W3]].
    destruct (C24_autoSpan_control j j' N p' w' ps n R Hn Hu (or_introl HN) (or_intror P2) ltac:(congruence) (or_intror P2))
      as [c0 [c1 [c2 [E0 [E1 [E2 [Sy H]]]]]]].
    eapply same_Q_c_of; try eassumption; [reflexivity|cbn; congruence|cbn; split; [congruence|left; exact CN]|].
    intro U. cbn. unfold ctrl_cost, span_cost. rewrite CN, Nat.eqb_refl. apply sum_ext; intros k Hk.
    rewrite RN. apply wsq_ext; intros i Hi; [eapply vpart_repeats; eassumption|].
    unfold part. rewrite CN, Nat.eqb_refl. rewrite (vpart_repeats n _ p' p k i Hn Hp Hk Hi). reflexivity.
  - intros Hp Hw. pose proof Hp as [P1 [P2 P3]]. pose proof Hw as [W1 [W2 W3]].
    destruct (C24_autoSpan_mixed j j' M N p' w' ps n R Hn Hx (or_introl HM) (or_introl HN) (or_intror P2) ltac:(congruence)
      (or_intror (or_intror P2))) as [c0 [c1 [c2 [E0 [E1 [E2 [Sy H]]]]]]].
    eapply same_Q_c_of; try eassumption; [reflexivity|cbn; congruence|cbn; split; [congruence|]; split; [congruence|left; auto]|].
    intro U. cbn. unfold mixed_cost, span_cost. rewrite CM, CN, !Nat.eqb_refl. cbn [andb]. apply sum_ext; intros k Hk.
    rewrite RM. apply wsq_ext; intros i Hi; [eapply vpart_repeats; eassumption|].
    rewrite part_state by exact CM. unfold part. rewrite CN, Nat.eqb_refl.
    rewrite (vpart_repeats n _ p' p k i Hn Hp Hk Hi). reflexivity.
Qed.
Print Assumptions C24_same_as_per_step.

(** per-step M and N, targets varying over the 3 steps *)
Example C24_example :
  let M := mlit [[1; 1]]%Z in let N := mlit [[2]]%Z in let p := vlit [15; 25; 35]%Z in let w := vlit [1; 2; 3]%Z in
  match k_autoSpan j0 (set_w (mkMixedC M N p) w) with
  | Ok c0 => match initializeCost j0 exps c0 with
    | Ok c1 => match k_update exps c1 with
      | Some c2 =>
        let value := span_cost 1 3 p w (fun U k i => part 1 2 3 1 M (stacked_state exps (vget (x0 exps)) U) k i + part 1 1 3 0 N U k i)%Qc in
        qeqb (objective (fullUDim exps) (at_ (kQ c2)) (vget (kc c2)) (vget exU)) (value (vget exU) - value (fun _ => 0))%Qc
        && negb (qeqb (value (vget exU)) (value (fun _ => 0%Qc)))
      | None => false end
    | _ => false end
  | _ => false end = true.
Proof. vm_compute. reflexivity. Qed.
Example C24_repeats_example : repeats 1 3 (vlit [4; 4; 4]%Z) (vlit [4]%Z) /\ step_mx 1 2 (mlit [[1; 1]]%Z).
Proof. split; [|split; reflexivity]. split; [reflexivity|]. split; [reflexivity|]. intros k i Hk Hi. assert (i = 0) by lia. subst.
  destruct k as [|[|[|k]]]; [reflexivity|reflexivity|reflexivity|lia]. Qed.

(** ** C26 (costs) *)
Lemma set_data_id c : set_data c (kM c) (kN c) (kp c) (kw c) = c.
Proof. destruct c; reflexivity. Qed.

(** spanning p and w of the same size: both succeed, or p fails first *)
Lemma span_pw_throw j c M N md e c' : vsize (kw c) = vsize (kp c) -> span_pw j c M N md = Throw e c' ->
  e = DomainError /\ c' = set_data c M N (kp c) (kw c) /\ md <> Z.of_nat (vsize (kp c)).
Proof.
  intros W. unfold span_pw. destruct (spanVector (jvec j 0) (kp c) md) as [p|e1 p|] eqn:E1; [| |discriminate].
  - destruct (spanVector (jvec j 1) (kw c) md) as [w|e2 w|] eqn:E2; [discriminate| |discriminate].
    exfalso. unfold spanVector in E1, E2. rewrite W in E2. destruct (_ =? _)%Z; [discriminate|].
    destruct (Nat.eqb _ _); [discriminate|]. destruct (negb _) eqn:B; [discriminate|]. destruct (_ <? _)%Z; [discriminate|].
    destruct (for_ _ _ _ _) in E2; discriminate.
  - intro H; injection H as <- <-. pose proof E1 as E1'. apply spanVector_throw in E1. destruct E1 as [-> ->].
    split; [reflexivity|]. split; [reflexivity|]. intros ->. rewrite spanVector_same in E1'. discriminate.
Qed.

Theorem C26_cost_autoSpan_failure : forall j c e c',
  kk c <> MixedCost -> vsize (kw c) = vsize (kp c) -> k_autoSpan j c = Throw e c' -> e = DomainError /\ c' = c.
Proof.
  intros j c e c' K W. unfold k_autoSpan. destruct (kk c); [|discriminate| |congruence].
  - unfold trajC_autoSpan. destruct (spanMatrix _ _ _) as [M|e1 M|] eqn:E1; [| |discriminate].
    + intro H. apply span_pw_throw in H; [|exact W]. destruct H as [-> [-> Hmd]]. split; [reflexivity|].
      destruct (Nat.max_spec (vsize (kw c)) (vsize (kp c))) as [[_ X]|[_ X]]; rewrite X in E1, Hmd; rewrite ?W in E1, Hmd;
        (destruct (zmax_cases (rows (kM c)) (vsize (kp c))) as [Y|Y]; rewrite Y in E1, Hmd; [|congruence]);
        rewrite spanMatrix_same in E1; injection E1 as <-; apply set_data_id.
    + intro H; injection H as <- <-. apply spanMatrix_throw in E1. destruct E1 as [-> ->]. rewrite set_data_id. auto.
  - unfold ctrlC_autoSpan. destruct (spanMatrix _ _ _) as [M|e1 M|] eqn:E1; [| |discriminate].
    + intro H. apply span_pw_throw in H; [|exact W]. destruct H as [-> [-> Hmd]]. split; [reflexivity|].
      destruct (Nat.max_spec (vsize (kw c)) (vsize (kp c))) as [[_ X]|[_ X]]; rewrite X in E1, Hmd; rewrite ?W in E1, Hmd;
        (destruct (zmax_cases (rows (kN c)) (vsize (kp c))) as [Y|Y]; rewrite Y in E1, Hmd; [|congruence]);
        rewrite spanMatrix_same in E1; injection E1 as <-; apply set_data_id.
    + intro H; injection H as <- <-. apply spanMatrix_throw in E1. destruct E1 as [-> ->]. rewrite set_data_id. auto.
Qed.
Print Assumptions C26_cost_autoSpan_failure.
Example C26_cost_example :
  match k_autoSpan j0 (mkTrajC (mlit [[1; 0]; [0; 1]]%Z) (vlit [1; 2; 3]%Z)) with
  | Throw DomainError c => Nat.eqb (rows (kM c)) 2 && Nat.eqb (vsize (kp c)) 3 | _ => false end = true.
Proof. vm_compute. reflexivity. Qed.

(** false of MixedCost: M (1 row) is spanned to 3 rows before N (2 rows) is rejected *)
Theorem C26_mixed_cost_autoSpan_refuted :
  exists M N p e c', k_autoSpan j0 (mkMixedC M N p) = Throw e c' /\ rows (kM c') <> rows M.
Proof.
  exists (mlit [[1; 0]]%Z), (mlit [[1]; [2]]%Z), (vlit [1; 2; 3]%Z).
  assert (X : match k_autoSpan j0 (mkMixedC (mlit [[1; 0]]%Z) (mlit [[1]; [2]]%Z) (vlit [1; 2; 3]%Z))
              with Throw _ c => Nat.eqb (rows (kM c)) 3 | _ => false end = true) by (vm_compute; reflexivity).
  destruct (k_autoSpan j0 _) as [c|e c|]; [discriminate| |discriminate].
  exists e, c. split; [reflexivity|]. apply Nat.eqb_eq in X. rewrite X. cbn. lia.
Qed.
Print Assumptions C26_mixed_cost_autoSpan_refuted.
