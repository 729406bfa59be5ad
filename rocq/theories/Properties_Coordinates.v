(** Properties_Coordinates.v -- C53: the choice of the state coordinates does not matter. *)
From Verif Require Import Base Eigen Spec Preview SpecApi PreviewProofs AutoSpan AutoSpanProofs Constraints ConstraintProofs
  SpecConstraints ConstraintMeaning Checkers Costs SpecCosts CostProofs CostMeaning Properties_Costs Controller Registry SpecController Assembly
  Results Properties_Assembly Properties_Results SpecProtocol Protocol Properties_Protocol SpecEndToEnd SpanData Properties_Registry
  EndToEnd EndToEndQP EndToEndRows EndToEndMain Convex ExactSolver Properties_EndToEnd Determined Properties_Problem StateExt
  SpecMeaning Meaning Coordinates Properties_Meaning.

(** x = T z with A1 T = T A2, B1 = T B2, d1 = T d2, and the constraints and costs of the second controller read z through T
    as those of the first read x ([T] need not be square nor invertible): the same control, and the trajectory is the image
    by T of the other at every step *)
Theorem C53_change_of_coordinates : forall T n1 n2 m N h1 w1 p1 e1 v1 h2 w2 p2 e2 v2,
  posed n1 m N h1 w1 p1 e1 true v1 -> posed n2 m N h2 w2 p2 e2 true v2 -> exact_solver e1 -> exact_solver e2 -> nonneg_weights h1 ->
  other_coordinates T (wps v1 p1) (wps v2 p2) ->
  spC (ctl w1) = spC (ctl w2) -> spCost (ctl w1) = spCost (ctl w2) ->
  (forall i d1 d2, In i (spC (ctl w1)) -> con_data_of h1 i = Some d1 -> con_data_of h2 i = Some d2 -> con_reads T (wps v1 p1) (wps v2 p2) d1 d2) ->
  (forall i d1 d2, In i (spCost (ctl w1)) -> cost_data_of h1 i = Some d1 -> cost_data_of h2 i = Some d2 ->
     cost_reads T (wps v1 p1) (wps v2 p2) d1 d2 /\ weights_of h1 i = weights_of h2 i) ->
  veq (m_ctrl (ctl v2)) (m_ctrl (ctl v1)) /\
  forall k i, k <= N -> i < n1 -> vget (m_traj (ctl v1)) (k * n1 + i) = sum n2 (fun j => T i j * vget (m_traj (ctl v2)) (k * n2 + j)%nat)%Qc.
Proof.
  intros T n1 n2 m N h1 w1 p1 e1 v1 h2 w2 p2 e2 v2 P1 P2 X1 X2 NW OC LC LK HC HK.
  destruct (po_ready _ _ _ _ _ _ _ _ _ P1) as [R1 [D1 _]]. destruct (po_ready _ _ _ _ _ _ _ _ _ P2) as [R2 [D2 _]].
  pose proof (oc_fu _ _ _ R1 R2 OC) as FU.
  assert (IM : forall i d1 d2 V, In i (spC (ctl w1)) -> con_data_of h1 i = Some d1 -> con_data_of h2 i = Some d2 ->
     (imposes (wps v1 p1) d1 (vget (x0 (wps v1 p1))) V <-> imposes (wps v2 p2) d2 (vget (x0 (wps v2 p2))) V))
    by (intros i d1 d2 V Hi E1 E2; apply (coordinates_imposes T _ _ R1 R2 OC); apply (HC i d1 d2 Hi E1 E2)).
  assert (DC : forall i, In i (spC (ctl w1)) -> exists d1 d2, con_data_of h1 i = Some d1 /\ con_data_of h2 i = Some d2).
  { intros i Hi. destruct (po_con _ _ _ _ _ _ _ _ _ P1 i Hi) as [d1 [E1 _]]. rewrite LC in Hi. destruct (po_con _ _ _ _ _ _ _ _ _ P2 i Hi) as [d2 [E2 _]]. exists d1, d2. auto. }
  assert (B : spB (ctl w1) = [] <-> spB (ctl w2) = []).
  { rewrite (po_bound _ _ _ _ _ _ _ _ _ P1), (po_bound _ _ _ _ _ _ _ _ _ P2). rewrite <- LC.
    assert (Q : forall i d1 d2, In i (spC (ctl w1)) -> con_data_of h1 i = Some d1 -> con_data_of h2 i = Some d2 -> (is_bound d1 <-> is_bound d2)).
    { intros i d1 d2 Hi E1 E2. pose proof (HC i d1 d2 Hi E1 E2) as K. destruct d1, d2; cbn in K; try contradiction; try discriminate K; cbn; tauto. }
    split; intros H i d Hi Ed; destruct (DC i Hi) as [d1 [d2 [E1 E2]]]; pose proof (Q i d1 d2 Hi E1 E2) as QQ.
    - rewrite Ed in E2. injection E2 as <-. intro IB. apply QQ in IB. exact (H i d1 Hi E1 IB).
    - rewrite Ed in E1. injection E1 as <-. intro IB. apply QQ in IB. exact (H i d2 Hi E2 IB). }
  destruct (C53_only_meaning_matters n1 n2 m N h1 w1 p1 e1 v1 h2 w2 p2 e2 v2 0%Qc P1 P2 X1 X2 NW) as [S1 [S2 SC]].
  - intro V. unfold admissible. rewrite B, FU. apply and_iff_compat_r. split; intros H i d Hi Ed.
    + rewrite <- LC in Hi. destruct (DC i Hi) as [d1 [d2 [E1 E2]]]. rewrite Ed in E2. injection E2 as <-. apply (IM i d1 d V Hi E1 Ed). exact (H i d1 Hi E1).
    + destruct (DC i Hi) as [d1 [d2 [E1 E2]]]. rewrite Ed in E1. injection E1 as <-. apply (IM i d d2 V Hi Ed E2). apply (H i d2); [rewrite <- LC; exact Hi|exact E2].
  - intros V _. unfold full_cost. rewrite FU. assert (TC : total_cost (wps v1 p1) h1 (spCost (ctl w1)) V = total_cost (wps v2 p2) h2 (spCost (ctl w2)) V); [|rewrite TC; ring].
    unfold total_cost. rewrite <- LK. apply lsum_ext. intros i Hi.
    destruct (po_cost _ _ _ _ _ _ _ _ _ P1 i Hi) as [d1 [E1 _]]. destruct (po_cost _ _ _ _ _ _ _ _ _ P2 i ltac:(rewrite <- LK; exact Hi)) as [d2 [E2 _]].
    destruct (HK i d1 d2 Hi E1 E2) as [CR EW]. rewrite E1, E2, EW. apply (coordinates_cost T _ _ R1 R2 OC). exact CR.
  - split; [split; [congruence|intros i Hi; apply SC; congruence]|]. intros k i Hk Hi.
    destruct (po_optimal _ _ _ _ _ _ _ _ P1 X1) as [[_ [_ T1]] _]. destruct (po_optimal _ _ _ _ _ _ _ _ P2 X2) as [[_ [_ T2]] _].
    assert (XD1 : xDim (wps v1 p1) = n1) by (transitivity (xDim (dps n1 m N)); [apply D1|reflexivity]).
    assert (XD2 : xDim (wps v2 p2) = n2) by (transitivity (xDim (dps n2 m N)); [apply D2|reflexivity]).
    assert (NS1 : nrUStep (wps v1 p1) = N) by (transitivity (nrUStep (dps n1 m N)); [apply D1|reflexivity]).
    assert (NS2 : nrUStep (wps v2 p2) = N) by (transitivity (nrUStep (dps n2 m N)); [apply D2|reflexivity]).
    pose proof (po_full _ _ _ _ _ _ _ _ _ P2) as FF.
    specialize (T1 k i). rewrite XD1, NS1 in T1. rewrite (T1 Hk Hi).
    rewrite (coordinates_state T _ _ OC) by (rewrite XD1; exact Hi). unfold apply. rewrite XD2. apply sum_ext. intros j Hj. f_equal.
    specialize (T2 k j). rewrite XD2, NS2 in T2. rewrite (T2 Hk Hj).
    apply (state_of_ext (wps v2 p2)); [exact R2|reflexivity| |rewrite NS2; exact Hk|rewrite XD2; exact Hj].
    intros r Hr. symmetry. apply SC. rewrite <- FF. exact Hr.
Qed.
Print Assumptions C53_change_of_coordinates.
(** the problem of [C56_example] with x = z_0 + z_1 *)
Definition ex53z : list op :=
  [OPs 0 (PSystem (mlit [[1; 0]; [0; 1]]%Z) (mlit [[1]; [0]]%Z) (vlit [0; 0]%Z) (vlit [-1; 1]%Z) 1); OConstruct j0 (CLMPCps 0) qempty;
   ONewCon (DTraj (mlit [[1; 1]]%Z) (elit [fin 1]) true); ONewCost (DTargetC (mlit [[1; 1]]%Z) (vlit [2]%Z)); OAddCost j0 0; OAddCon j0 0].
Example C53_example_coordinates : exists w1 v1 w2 v2,
  posed 1 1 1 (ex56 0 true) w1 0 (env_certs [cert56 1]) true v1 /\ posed 2 1 1 ex53z w2 0 (env_certs [cert56 1]) true v2 /\
  exact_solver (env_certs [cert56 1]) /\ nonneg_weights (ex56 0 true) /\
  other_coordinates (fun _ _ => 1%Qc) (wps v1 0) (wps v2 0) /\
  spC (ctl w1) = spC (ctl w2) /\ spCost (ctl w1) = spCost (ctl w2) /\ spC (ctl w1) = [0] /\ spCost (ctl w1) = [0] /\
  (forall i d1 d2, In i (spC (ctl w1)) -> con_data_of (ex56 0 true) i = Some d1 -> con_data_of ex53z i = Some d2 -> con_reads (fun _ _ => 1%Qc) (wps v1 0) (wps v2 0) d1 d2) /\
  (forall i d1 d2, In i (spCost (ctl w1)) -> cost_data_of (ex56 0 true) i = Some d1 -> cost_data_of ex53z i = Some d2 ->
     cost_reads (fun _ _ => 1%Qc) (wps v1 0) (wps v2 0) d1 d2 /\ weights_of (ex56 0 true) i = weights_of ex53z i).
Proof.
  assert (SF : sizes_fit 1 1 1) by (repeat split; lia). assert (SF2 : sizes_fit 2 1 1) by (repeat split; lia).
  destruct (posedb_ok 1 1 1 (ex56 0 true) (env_certs [cert56 1]) true SF ltac:(vm_compute; reflexivity)) as [w1 [v1 [R1 [S1 P1]]]].
  destruct (posedb_ok 2 1 1 ex53z (env_certs [cert56 1]) true SF2 ltac:(vm_compute; reflexivity)) as [w2 [v2 [R2 [S2 P2]]]].
  assert (C : match run world0 (ex56 0 true), run world0 ex53z with
    | Some a, Some b => (psA (wps a 0) = mlit [[1]]%Z /\ psB (wps a 0) = mlit [[1]]%Z /\ psd (wps a 0) = vlit [0]%Z /\ x0 (wps a 0) = vlit [0]%Z) /\
        (psA (wps b 0) = mlit [[1; 0]; [0; 1]]%Z /\ psB (wps b 0) = mlit [[1]; [0]]%Z /\ psd (wps b 0) = vlit [0; 0]%Z /\ x0 (wps b 0) = vlit [-1; 1]%Z) /\
        spC (ctl a) = [0] /\ spC (ctl b) = [0] /\ spCost (ctl a) = [0] /\ spCost (ctl b) = [0]
    | _, _ => False end) by (vm_compute; repeat split).
  rewrite R1, R2 in C. destruct C as [[CA [CB [Cd Cx]]] [[CA' [CB' [Cd' Cx']]] [C1 [C2 [K1 K2]]]]].
  exists w1, v1, w2, v2. split; [exact P1|]. split; [exact P2|]. split; [apply env_certs_exact|]. split; [no_weights|].
  destruct (po_ready _ _ _ _ _ _ _ _ _ P1) as [Rd1 [SD1 [[_ [A1 [B1 E1]]] X1]]]. destruct (po_ready _ _ _ _ _ _ _ _ _ P2) as [Rd2 [SD2 [[_ [A2 [B2 E2]]] X2]]].
  assert (XD1 : xDim (wps v1 0) = 1) by (transitivity (xDim (dps 1 1 1)); [apply SD1|reflexivity]).
  assert (XD2 : xDim (wps v2 0) = 2) by (transitivity (xDim (dps 2 1 1)); [apply SD2|reflexivity]).
  assert (UD1 : uDim (wps v1 0) = 1) by (transitivity (uDim (dps 1 1 1)); [apply SD1|reflexivity]).
  assert (UD2 : uDim (wps v2 0) = 1) by (transitivity (uDim (dps 2 1 1)); [apply SD2|reflexivity]).
  split.
  { split; [congruence|]. split; [transitivity 1; [transitivity (nrUStep (dps 1 1 1)); [apply SD1|reflexivity]|symmetry; transitivity (nrUStep (dps 2 1 1)); [apply SD2|reflexivity]]|].
    rewrite XD1, XD2, UD1, A1, A2, B1, B2, E1, E2, X1, X2, CA, CA', CB, CB', Cd, Cd', Cx, Cx'.
    split; [|split; [|split]].
    - intros [|i] [|[|j]] Hi Hj; try lia; apply Qc_is_canon; reflexivity.
    - intros [|i] [|j] Hi Hj; try lia; apply Qc_is_canon; reflexivity.
    - intros [|i] Hi; try lia; apply Qc_is_canon; reflexivity.
    - intros [|i] Hi; try lia; apply Qc_is_canon; reflexivity. }
  split; [congruence|]. split; [congruence|]. split; [exact C1|]. split; [exact K1|].
  assert (RS : reads_step (fun _ _ => 1%Qc) (wps v1 0) (wps v2 0) (mlit [[1]]%Z) (mlit [[1; 1]]%Z)).
  { split; [reflexivity|]. rewrite XD1, XD2. split; [reflexivity|]. split; [reflexivity|]. intros [|i] [|[|j]] Hi Hj; cbn in Hi; try lia; apply Qc_is_canon; reflexivity. }
  split; [rewrite C1|rewrite K1]; intros i d1 d2 [<-|[]] Q1 Q2; injection Q1 as <-; injection Q2 as <-; cbn [con_reads cost_reads].
  - split; [left; exact RS|split; reflexivity].
  - split; [split; [exact RS|reflexivity]|reflexivity].
Qed.
