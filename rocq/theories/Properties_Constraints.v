(** Properties_Constraints.v -- C07-C14: meaning and initialization of the constraint classes.
    [initializeConstraint j ps0 c] is what addConstraint runs ([j]: arbitrary uninitialized memory);
    [c_updates (pss ++ [ps]) c1] are the updates of any number of successive solves, the last one
    with the preview system [ps]. *)
From Verif Require Import Base Eigen Spec Preview SpecApi AutoSpan Constraints SpecConstraints
  PreviewProofs ConstraintProofs ConstraintMeaning Checkers.

(** the sizes of the published rows *)
Definition rows_sized (ps : psys) (c : constr) : Prop :=
  rows (cA c) = nrConstr c /\ cols (cA c) = fullUDim ps /\ vsize (cb c) = nrConstr c /\
  rows (cY c) = nrConstr c /\ cols (cY c) = xDim ps /\ vsize (cz c) = nrConstr c.

Lemma shape_sized ps c : c_shape ps c -> ck c <> KCtrlB -> rows_sized ps c.
Proof. unfold c_shape. destruct (ck c); intros H N; try apply H. congruence. Qed.

Lemma solves_last ps0 pss ps : solves_with ps0 pss ps -> ready ps /\ same_dims ps ps0.
Proof. intro H. apply Forall_app in H. destruct H as [_ H]. inversion H; assumption. Qed.

(** common part: initialize, update any number of times, read the rows *)
Lemma eqineq_rows j ps0 pss ps c0 c1 : fresh_constr c0 -> ck c0 <> KCtrlB ->
  initializeConstraint j ps0 c0 = Ok c1 -> solves_with ps0 pss ps ->
  exists c2, c_updates (pss ++ [ps]) c1 = Some c2 /\ rows_sized ps c2 /\ nrConstr c2 = nrConstr c1 /\
    constraintType c2 = constraintType c0 /\ isIneq c1 = isIneq c0 /\ rows_as ps c1 c2 /\
    (forall U, rows_hold (isIneq c0) (nrConstr c2) (fullUDim ps) (at_ (cA c2)) (vget (cb c2)) U <->
               row_means ps c1 (vget (x0 ps)) U).
Proof.
  intros Fr K H S. destruct (init_keeps _ _ _ _ H) as [K1 [I1 _]].
  assert (Sh : c_shape ps0 c1).
  { eapply init_shape; [exact H| |]; destruct Fr; try reflexivity; try discriminate. intros _. apply mkTrajB_lines. }
  destruct (updates_ok ps0 pss ps c1 Sh S) as [c2 [E [O [S2 M]]]].
  assert (K2 : ck c2 = ck c0) by (etransitivity; [apply O|exact K1]).
  assert (I2 : isIneq c2 = isIneq c0) by (etransitivity; [apply O|exact I1]).
  assert (N2 : nrConstr c2 = nrConstr c1) by apply O.
  exists c2. split; [exact E|]. split; [apply shape_sized; [exact S2|congruence]|]. split; [exact N2|].
  split; [unfold constraintType; rewrite K2, I2; reflexivity|]. split; [exact I1|]. split; [exact M|].
  intro U. rewrite N2, <- I1. apply rows_mean; [congruence|exact M].
Qed.

(** ** C07 *)
Theorem C07_trajectory_constraint : forall j E f ineq ps0 pss ps c1,
  initializeConstraint j ps0 (mkTraj E f ineq) = Ok c1 -> solves_with ps0 pss ps ->
  exists c2, c_updates (pss ++ [ps]) c1 = Some c2 /\ rows_sized ps c2 /\
    constraintType c2 = (if ineq then InequalityConstraint else EqualityConstraint) /\
    forall U, rows_hold ineq (nrConstr c2) (fullUDim ps) (at_ (cA c2)) (vget (cb c2)) U <->
              traj_means ps E f ineq (vget (x0 ps)) U.
Proof.
  intros j E f ineq ps0 pss ps c1 H S.
  destruct (eqineq_rows j ps0 pss ps _ c1 (fresh_traj E f ineq) ltac:(discriminate) H S)
    as [c2 [H1 [H2 [H3 [H4 [H5 [H6 H7]]]]]]].
  exists c2. split; [exact H1|]. split; [exact H2|]. split; [exact H4|].
  intro U. rewrite (H7 U). eapply traj_row_means; [exact H|apply (solves_last _ _ _ S)].
Qed.

Lemma exps_solves : solves_with exps [exps] exps.
Proof. repeat constructor; try apply exps_ready. Qed.

(** per-step inequality on the 2-state example, second solve; rows hold for one control and fail for another *)
Example C07_example :
  exists c1, initializeConstraint j0 exps (mkTraj (mlit [[1; 0]]%Z) (elit [fin 25]) true) = Ok c1 /\
    match c_updates [exps; exps] c1 with
    | Some c2 => rows_holdb true (nrConstr c2) (fullUDim exps) (at_ (cA c2)) (vget (cb c2)) (vget exU) = true /\
                 nrConstr c2 = 4 /\
                 rows_holdb true (nrConstr c2) (fullUDim exps) (at_ (cA c2)) (vget (cb c2)) (vget (vlit [50; 0; 0]%Z)) = false
    | None => False end.
Proof. eexists. split; [reflexivity|]. vm_compute. repeat split. Qed.
Print Assumptions C07_trajectory_constraint.

(** ** C08 *)
Theorem C08_control_constraint : forall j G f ineq ps0 pss ps c1,
  initializeConstraint j ps0 (mkCtrl G f ineq) = Ok c1 -> solves_with ps0 pss ps ->
  exists c2, c_updates (pss ++ [ps]) c1 = Some c2 /\ rows_sized ps c2 /\
    constraintType c2 = (if ineq then InequalityConstraint else EqualityConstraint) /\
    forall U, rows_hold ineq (nrConstr c2) (fullUDim ps) (at_ (cA c2)) (vget (cb c2)) U <->
              ctrl_means ps G f ineq U.
Proof.
  intros j G f ineq ps0 pss ps c1 H S.
  destruct (eqineq_rows j ps0 pss ps _ c1 (fresh_ctrl G f ineq) ltac:(discriminate) H S)
    as [c2 [H1 [H2 [H3 [H4 [H5 [H6 H7]]]]]]].
  exists c2. split; [exact H1|]. split; [exact H2|]. split; [exact H4|].
  intro U. rewrite (H7 U). eapply ctrl_row_means; [exact H|apply (solves_last _ _ _ S)].
Qed.
Example C08_example :
  exists c1, initializeConstraint j0 exps (mkCtrl (mlit [[1; 0; 0]; [0; 1; 1]]%Z) (elit [fin 5; fin 8]) false) = Ok c1 /\
    match c_updates [exps; exps] c1 with
    | Some c2 => rows_holdb false (nrConstr c2) (fullUDim exps) (at_ (cA c2)) (vget (cb c2)) (vget exU) = true /\
                 nrConstr c2 = 2 /\
                 rows_holdb false (nrConstr c2) (fullUDim exps) (at_ (cA c2)) (vget (cb c2)) (vget (vlit [5; 0; 0]%Z)) = false
    | None => False end.
Proof. eexists. split; [reflexivity|]. vm_compute. repeat split. Qed.
Print Assumptions C08_control_constraint.

(** ** C09 *)
Theorem C09_mixed_constraint : forall j E G f ineq ps0 pss ps c1,
  initializeConstraint j ps0 (mkMixed E G f ineq) = Ok c1 -> solves_with ps0 pss ps ->
  exists c2, c_updates (pss ++ [ps]) c1 = Some c2 /\ rows_sized ps c2 /\
    constraintType c2 = (if ineq then InequalityConstraint else EqualityConstraint) /\
    forall U, rows_hold ineq (nrConstr c2) (fullUDim ps) (at_ (cA c2)) (vget (cb c2)) U <->
              mixed_means ps E G f ineq (vget (x0 ps)) U.
Proof.
  intros j E G f ineq ps0 pss ps c1 H S.
  destruct (eqineq_rows j ps0 pss ps _ c1 (fresh_mixed E G f ineq) ltac:(discriminate) H S)
    as [c2 [H1 [H2 [H3 [H4 [H5 [H6 H7]]]]]]].
  exists c2. split; [exact H1|]. split; [exact H2|]. split; [exact H4|].
  intro U. rewrite (H7 U). eapply mixed_row_means; [exact H|apply (solves_last _ _ _ S)].
Qed.
Example C09_example :
  exists c1, initializeConstraint j0 exps (mkMixed (mlit [[1; 1]]%Z) (mlit [[2]]%Z) (elit [fin 26]) true) = Ok c1 /\
    match c_updates [exps; exps] c1 with
    | Some c2 => rows_holdb true (nrConstr c2) (fullUDim exps) (at_ (cA c2)) (vget (cb c2)) (vget exU) = true /\
                 nrConstr c2 = 3 /\
                 rows_holdb true (nrConstr c2) (fullUDim exps) (at_ (cA c2)) (vget (cb c2)) (vget (vlit [5; 8; 1]%Z)) = false
    | None => False end.
Proof. eexists. split; [reflexivity|]. vm_compute. repeat split. Qed.
Print Assumptions C09_mixed_constraint.

(** ** C10: the full statement (rows hold iff lower <= x_k <= upper) is false of the code.
    What the rows say for every input: x_k is below the finite lower bounds AND below the upper bounds. *)
Theorem C10_trajectory_bound_rows_partial : forall j lower upper ps0 pss ps c1,
  initializeConstraint j ps0 (mkTrajB lower upper) = Ok c1 -> solves_with ps0 pss ps ->
  exists c2, c_updates (pss ++ [ps]) c1 = Some c2 /\ rows_sized ps c2 /\
    constraintType c2 = InequalityConstraint /\
    forall U, rows_hold true (nrConstr c2) (fullUDim ps) (at_ (cA c2)) (vget (cb c2)) U <->
              traj_below_both ps lower upper (vget (x0 ps)) U.
Proof.
  intros j lo up ps0 pss ps c1 H S.
  destruct (eqineq_rows j ps0 pss ps _ c1 (fresh_trajB lo up) ltac:(discriminate) H S)
    as [c2 [H1 [H2 [H3 [H4 [H5 [H6 H7]]]]]]].
  exists c2. split; [exact H1|]. split; [exact H2|]. split; [exact H4|].
  intro U. rewrite (H7 U). eapply trajB_row_means; [apply (solves_last _ _ _ S)|exact H|apply (solves_last _ _ _ S)].
Qed.

(** without lower bounds the documented meaning holds; missing: any entry of [lower] other than -inf *)
Theorem C10_trajectory_bound_upper_partial : forall j lower upper ps0 pss ps c1,
  initializeConstraint j ps0 (mkTrajB lower upper) = Ok c1 -> solves_with ps0 pss ps ->
  (forall i, i < vsize lower -> vget lower i = NInf) ->
  exists c2, c_updates (pss ++ [ps]) c1 = Some c2 /\
    forall U, rows_hold true (nrConstr c2) (fullUDim ps) (at_ (cA c2)) (vget (cb c2)) U <->
              traj_between ps lower upper (vget (x0 ps)) U.
Proof.
  intros j lo up ps0 pss ps c1 H S L.
  destruct (C10_trajectory_bound_rows_partial j lo up ps0 pss ps c1 H S) as [c2 [E [_ [_ M]]]].
  exists c2. split; [exact E|]. intro U. rewrite M. apply init_keeps in H. cbn in H.
  destruct (solves_last _ _ _ S) as [_ [D1 [_ [_ [_ [D5 _]]]]]].
  destruct H as [_ [_ [_ [_ [_ [_ [_ [_ [_ Hc]]]]]]]]]. rewrite <- D1, <- D5 in Hc.
  unfold traj_below_both, traj_between, below_both, within_bounds.
  destruct (Nat.eqb_spec (vsize lo) (xDim ps)) as [Ex|Ex].
  - split; intros G k Hk i Hi; specialize (G k Hk i Hi); rewrite (L i) in * by congruence; cbn in *; intuition congruence.
  - assert (Hf : vsize lo = fullXDim ps) by tauto.
    split; intros G i Hi; specialize (G i Hi); rewrite (L i) in * by congruence; cbn in *; intuition congruence.
Qed.

(** a control satisfying the documented bounds is rejected by the rows, and one violating them is accepted *)
Theorem C10_trajectory_bound_refuted :
  (exists ps lower upper c1 c2 U, ready ps /\
     initializeConstraint j0 ps (mkTrajB lower upper) = Ok c1 /\ c_updates [ps] c1 = Some c2 /\
     traj_between ps lower upper (vget (x0 ps)) U /\
     ~ rows_hold true (nrConstr c2) (fullUDim ps) (at_ (cA c2)) (vget (cb c2)) U) /\
  (exists ps lower upper c1 c2 U, ready ps /\
     initializeConstraint j0 ps (mkTrajB lower upper) = Ok c1 /\ c_updates [ps] c1 = Some c2 /\
     ~ traj_between ps lower upper (vget (x0 ps)) U /\
     rows_hold true (nrConstr c2) (fullUDim ps) (at_ (cA c2)) (vget (cb c2)) U).
Proof.
  assert (G : forall z, exists c1 c2,
     initializeConstraint j0 (sps z 1) (mkTrajB (elit [fin (-1)]) (elit [fin 1])) = Ok c1 /\
     c_updates [sps z 1] c1 = Some c2 /\
     forall U, rows_hold true (nrConstr c2) (fullUDim (sps z 1)) (at_ (cA c2)) (vget (cb c2)) U <->
       traj_below_both (sps z 1) (elit [fin (-1)]) (elit [fin 1]) (vget (x0 (sps z 1))) U).
  { intro z. destruct (initializeConstraint j0 (sps z 1) (mkTrajB (elit [fin (-1)]) (elit [fin 1]))) as [c1| |] eqn:E;
      [|discriminate E|discriminate E].
    destruct (C10_trajectory_bound_rows_partial _ _ _ (sps z 1) [] (sps z 1) c1 E) as [c2 [E2 [_ [_ M]]]].
    { constructor; [|constructor]. split; [apply sps_ready; auto|repeat split]. }
    exists c1, c2. split; [reflexivity|]. split; [exact E2|exact M]. }
  split.
  - destruct (G 0%Z) as [c1 [c2 [E1 [E2 M]]]].
    exists (sps 0 1), (elit [fin (-1)]), (elit [fin 1]), c1, c2, (fun _ => 0%Qc).
    split; [apply sps_ready; auto|]. split; [exact E1|]. split; [exact E2|]. split.
    + apply traj_betweenb_ok. vm_compute. reflexivity.
    + rewrite M. intro B. specialize (B 0 ltac:(vm_compute; lia) 0 ltac:(vm_compute; lia)). destruct B as [B _].
      specialize (B ltac:(discriminate)). apply q_le_extb_ok in B. vm_compute in B. discriminate B.
  - destruct (G (-2)%Z) as [c1 [c2 [E1 [E2 M]]]].
    exists (sps (-2) 1), (elit [fin (-1)]), (elit [fin 1]), c1, c2, (fun _ => 0%Qc).
    split; [apply sps_ready; auto|]. split; [exact E1|]. split; [exact E2|]. split.
    + intro B. apply traj_betweenb_ok in B. vm_compute in B. discriminate B.
    + rewrite M. intros k Hk i Hi. assert (i = 0) by (vm_compute in Hi; lia). subst i.
      assert (Hk' : k = 0 \/ k = 1) by (vm_compute in Hk; lia).
      destruct Hk' as [-> | ->]; split; intros; apply q_le_extb_ok; vm_compute; reflexivity.
Qed.
Print Assumptions C10_trajectory_bound_rows_partial.
Print Assumptions C10_trajectory_bound_upper_partial.
Print Assumptions C10_trajectory_bound_refuted.

(** ** C11 *)
Theorem C11_control_bound : forall j lower upper ps0 pss ps c1,
  initializeConstraint j ps0 (mkCtrlB lower upper) = Ok c1 -> solves_with ps0 pss ps ->
  exists c2, c_updates (pss ++ [ps]) c1 = Some c2 /\ constraintType c2 = BoundConstraint /\
    vsize (clb c2) = fullUDim ps /\ vsize (cub c2) = fullUDim ps /\
    (vsize lower = uDim ps -> forall k i, k < nrUStep ps -> i < uDim ps ->
       vget (clb c2) (k * uDim ps + i) = vget lower i /\ vget (cub c2) (k * uDim ps + i) = vget upper i) /\
    (vsize lower <> uDim ps -> forall i, i < fullUDim ps ->
       vget (clb c2) i = vget lower i /\ vget (cub c2) i = vget upper i) /\
    forall U, within_bounds (fullUDim ps) (vget (clb c2)) (vget (cub c2)) U <-> ctrl_between ps lower upper U.
Proof.
  intros j lo up ps0 pss ps c1 H S. destruct (solves_last _ _ _ S) as [R D].
  destruct (init_keeps _ _ _ _ H) as [K1 [I1 [_ [_ Hk]]]]. cbn in Hk.
  assert (Sh : c_shape ps0 c1) by (eapply init_shape; [exact H|reflexivity|discriminate]).
  destruct (updates_ok ps0 pss ps c1 Sh S) as [c2 [E [O [S2 M]]]].
  assert (K2 : ck c2 = KCtrlB) by (etransitivity; [apply O|exact K1]).
  exists c2. split; [exact E|]. split; [unfold constraintType; rewrite K2; reflexivity|].
  unfold c_shape in S2. rewrite K2 in S2. destruct S2 as [_ [_ [L1 [L2 _]]]].
  split; [exact L1|]. split; [exact L2|].
  destruct Hk as [Hs [Hf [Hn [Hd Hc]]]]. pose proof D as [D1 [D2 [D3 [D4 [D5 D6]]]]]. rewrite <- D2 in Hf, Hd.
  destruct M as [_ M']. specialize (M' K1). unfold cb_lo, cb_up in M'. rewrite Hf in M'.
  split; [|split].
  - intros Hu k i Hk Hi. rewrite (proj2 (Nat.eqb_eq _ _) Hu) in Hd, M'. destruct Hd as [Hd1 Hd2].
    destruct (M' (k * uDim ps + i)) as [M1 M2]; [rewrite (rd_fu ps R); nia|].
    rewrite Hd1 in M1. rewrite Hd2 in M2. rewrite blk_rem in M1, M2 by exact Hi. split; assumption.
  - intros Hu i Hi. rewrite (proj2 (Nat.eqb_neq _ _) Hu) in Hd, M'. destruct Hd as [Hd1 Hd2].
    destruct (M' i Hi) as [M1 M2]. rewrite Hd1 in M1. rewrite Hd2 in M2. split; assumption.
  - intro U. eapply ctrlB_bounds_mean; [exact R|exact H|exact D|].
    destruct (updates_ok ps0 pss ps c1 Sh S) as [c3 [E3 [_ [_ M3]]]]. rewrite E in E3. injection E3 as <-. exact M3.
Qed.
Example C11_example :
  exists c1, initializeConstraint j0 exps (mkCtrlB (elit [fin (-1)]) (elit [fin 6])) = Ok c1 /\
    match c_updates [exps; exps] c1 with
    | Some c2 => vdump (clb c2) = [fin (-1); fin (-1); fin (-1)] /\
        within_boundsb (fullUDim exps) (vget (clb c2)) (vget (cub c2)) (vget exU) = false
    | None => False end.
Proof. eexists. split; [reflexivity|]. vm_compute. repeat split. Qed.
Print Assumptions C11_control_bound.

(** ** C12 *)

(** a row's coefficients are determined by the affine form they stand for *)
Lemma trow_coeffs ps ps' A b Y z A' b' Y' z' r lin rhs : same_dims ps ps' ->
  trow_ok ps A b Y z r lin rhs -> trow_ok ps' A' b' Y' z' r lin rhs ->
  (forall c, c < fullUDim ps -> at_ A r c = at_ A' r c) /\ (forall j, j < xDim ps -> at_ Y r j = at_ Y' r j) /\
  vget z r = vget z' r.
Proof.
  intros [D1 [D2 [D3 [D4 [D5 D6]]]]] [k [Ez [_ El]]] [k' [Ez' [_ El']]]. rewrite <- D1, <- D6 in El'.
  assert (Hz : forall n (F : nat -> Qc), sum n (fun j => F j * 0)%Qc = 0%Qc) by (intros; apply sum_zero; intros; ring).
  assert (Hd : forall n (F : nat -> Qc) c, c < n -> sum n (fun j => F j * (if Nat.eqb j c then 1 else 0))%Qc = F c).
  { intros n F c Hc. rewrite <- (sum_delta n c F Hc). apply sum_ext; intros i _. destruct (Nat.eqb i c); ring. }
  assert (Ek : k = k').
  { pose proof (El (fun _ => 0%Qc) (fun _ => 0%Qc)) as E1. pose proof (El' (fun _ => 0%Qc) (fun _ => 0%Qc)) as E2.
    rewrite !Hz in E1, E2. rewrite <- E1 in E2. revert E2. intro E2.
    assert (G : (0 + 0 + k' = 0 + 0 + k)%Qc) by exact E2. replace k with (0 + 0 + k)%Qc by ring. rewrite <- G. ring. }
  subst k'. split; [|split; [|congruence]].
  - intros c Hc. pose proof (El (fun _ => 0%Qc) (fun j => if Nat.eqb j c then 1%Qc else 0%Qc)) as E1.
    pose proof (El' (fun _ => 0%Qc) (fun j => if Nat.eqb j c then 1%Qc else 0%Qc)) as E2.
    rewrite Hz, Hd in E1, E2 by exact Hc. rewrite <- E2 in E1.
    replace (at_ A r c) with ((0 + at_ A r c + k) - k)%Qc by ring. rewrite E1. ring.
  - intros c Hc. pose proof (El (fun j => if Nat.eqb j c then 1%Qc else 0%Qc) (fun _ => 0%Qc)) as E1.
    pose proof (El' (fun j => if Nat.eqb j c then 1%Qc else 0%Qc) (fun _ => 0%Qc)) as E2.
    rewrite Hz, Hd in E1, E2 by exact Hc. rewrite <- E2 in E1.
    replace (at_ Y r c) with ((at_ Y r c + 0 + k) - k)%Qc by ring. rewrite E1. ring.
Qed.

(** [c2]: updated with initial state x0 of [ps]; [c2']: the same object updated with [x] instead *)
Theorem C12_extended_rows : forall j c0 ps0 pss ps x c1,
  fresh_constr c0 -> ck c0 <> KCtrlB ->
  initializeConstraint j ps0 c0 = Ok c1 -> solves_with ps0 pss ps -> vsize x = xDim ps ->
  exists c2 c2', c_updates (pss ++ [ps]) c1 = Some c2 /\ c_updates (pss ++ [ps_xInit ps x]) c1 = Some c2' /\
    nrConstr c2' = nrConstr c2 /\
    (* A, Y, z do not depend on the initial state; b = z - Y x0 *)
    (forall r, r < nrConstr c2 ->
      (forall c, c < fullUDim ps -> at_ (cA c2) r c = at_ (cA c2') r c) /\
      (forall i, i < xDim ps -> at_ (cY c2) r i = at_ (cY c2') r i) /\
      vget (cz c2) r = vget (cz c2') r /\
      vget (cb c2) r = ext_sub (vget (cz c2) r) (apply (xDim ps) (at_ (cY c2)) (vget (x0 ps)) r)) /\
    (* the extended rows at (x, U) are the rows at U of the object given x *)
    (forall U, (forall r, r < nrConstr c2 ->
        cmp (isIneq c0) (apply (xDim ps) (at_ (cY c2)) (vget x) r + apply (fullUDim ps) (at_ (cA c2)) U r)%Qc
                        (vget (cz c2) r)) <->
      rows_hold (isIneq c0) (nrConstr c2') (fullUDim ps) (at_ (cA c2')) (vget (cb c2')) U).
Proof.
  intros j c0 ps0 pss ps x c1 Fr K H S Hx.
  assert (S' : solves_with ps0 pss (ps_xInit ps x)).
  { unfold solves_with in *. apply Forall_app in S. destruct S as [S1 S2]. apply Forall_app. split; [exact S1|].
    inversion S2 as [|? ? [R D] _]; subst. constructor; [|constructor]. split; [|exact D].
    destruct R as [R1 R2 R3 R4 R5 R6]. split; assumption. }
  destruct (eqineq_rows j ps0 pss ps _ c1 Fr K H S) as [c2 [H1 [_ [H3 [H4 [H5 [H6 H7]]]]]]].
  destruct (eqineq_rows j ps0 pss _ _ c1 Fr K H S') as [c2' [G1 [_ [G3 [G4 [G5 [G6 G7]]]]]]].
  destruct (init_keeps _ _ _ _ H) as [K1 _].
  exists c2, c2'. split; [exact H1|]. split; [exact G1|]. split; [congruence|]. split.
  - intros r Hr. rewrite H3 in Hr.
    pose proof (proj1 H6 ltac:(congruence) r Hr) as T. pose proof (proj1 G6 ltac:(congruence) r Hr) as T'.
    destruct (trow_coeffs ps (ps_xInit ps x) _ _ _ _ _ _ _ _ r _ _ ltac:(repeat split) T T') as [Q1 [Q2 Q3]].
    repeat (split; [assumption|]). destruct T as [k [_ [Eb _]]]. exact Eb.
  - intro U. rewrite (G7 U). rewrite H3. rewrite <- H5.
    rewrite (rows_mean_ext ps c1 c2 (vget x) U ltac:(congruence) H6). reflexivity.
Qed.
Print Assumptions C12_extended_rows.

(** ** C13 (object part; the controller part is C13_addConstraint in Properties_Controller.v) *)
Theorem C13_initialize : forall j ps c0, fresh_constr c0 -> (Z.of_nat (row_count ps c0) <= 2147483647)%Z ->
  (valid_shape ps c0 ->
     exists c1, initializeConstraint j ps c0 = Ok c1 /\ nrConstr c1 = row_count ps c0 /\ c_shape ps c1) /\
  (~ valid_shape ps c0 -> initializeConstraint j ps c0 = Throw DomainError c0).
Proof.
  intros j ps c0 Fr Hfit.
  assert (Sh : forall c1, initializeConstraint j ps c0 = Ok c1 -> c_shape ps c1).
  { intros c1 H. eapply init_shape; [exact H| |]; destruct Fr; try reflexivity; try discriminate. intros _. apply mkTrajB_lines. }
  assert (G : (exists c1, initializeConstraint j ps c0 = Ok c1 /\ nrConstr c1 = row_count ps c0 /\ valid_shape ps c0) \/
              (initializeConstraint j ps c0 = Throw DomainError c0 /\ ~ valid_shape ps c0)).
  { assert (Hf : fits_int (row_count ps c0) = true) by (unfold fits_int, INT_MAX; apply Z.leb_le; exact Hfit).
    revert Hf. unfold row_count, valid_shape, initializeConstraint.
    destruct Fr; cbn; [unfold traj_init|unfold ctrl_init|unfold mixed_init|unfold trajB_init|unfold ctrlB_init]; cbn.
    - destruct (Nat.eqb_spec (rows E) (vsize f)); [cbn|right; split; [reflexivity|tauto]].
      destruct (Nat.eqb_spec (cols E) (xDim ps)); intro Hf; [rewrite Hf; left; eexists; split; [reflexivity|]; tauto|].
      destruct (Nat.eqb_spec (cols E) (fullXDim ps)); [rewrite Hf; left; eexists; split; [reflexivity|]; tauto|].
      right; split; [reflexivity|tauto].
    - destruct (Nat.eqb_spec (rows G) (vsize f)); [cbn|right; split; [reflexivity|tauto]].
      destruct (Nat.eqb_spec (cols G) (uDim ps)); intro Hf; [rewrite Hf; left; eexists; split; [reflexivity|]; tauto|].
      destruct (Nat.eqb_spec (cols G) (fullUDim ps)); [rewrite Hf; left; eexists; split; [reflexivity|]; tauto|].
      right; split; [reflexivity|tauto].
    - destruct (Nat.eqb_spec (rows E) (vsize f)); [cbn|right; split; [reflexivity|tauto]].
      destruct (Nat.eqb_spec (rows G) (vsize f)); [cbn|right; split; [reflexivity|tauto]].
      destruct (Nat.eqb_spec (cols E) (xDim ps)); destruct (Nat.eqb_spec (cols G) (uDim ps)); cbn; intro Hf;
        try (rewrite Hf; left; eexists; split; [reflexivity|]; tauto);
        destruct (Nat.eqb_spec (cols E) (fullXDim ps)); destruct (Nat.eqb_spec (cols G) (fullUDim ps)); cbn;
        try (rewrite Hf; left; eexists; split; [reflexivity|]; tauto);
        right; (split; [reflexivity|tauto]).
    - destruct (Nat.eqb_spec (vsize lo) (vsize up)); [cbn|right; split; [reflexivity|tauto]].
      destruct (Nat.eqb_spec (vsize lo) (xDim ps)); intro Hf; [rewrite Hf; left; eexists; split; [reflexivity|]; tauto|].
      destruct (Nat.eqb_spec (vsize lo) (fullXDim ps)); [rewrite Hf; left; eexists; split; [reflexivity|]; tauto|].
      right; split; [reflexivity|tauto].
    - destruct (Nat.eqb_spec (vsize lo) (vsize up)); [cbn|right; split; [reflexivity|tauto]].
      destruct (Nat.eqb_spec (vsize lo) (uDim ps)); intro Hf; [left; eexists; split; [reflexivity|]; tauto|].
      destruct (Nat.eqb_spec (vsize lo) (fullUDim ps)) as [Ef|Ef]; [rewrite Ef, Hf; left; eexists; split; [reflexivity|]; cbn; intuition congruence|].
      right; split; [reflexivity|tauto]. }
  destruct G as [[c1 [E [N V]]]|[E V]]; split; intro H; try contradiction.
  - exists c1. split; [exact E|]. split; [exact N|apply Sh; exact E].
  - exact E.
Qed.
Example C13_example :
  valid_shape exps (mkTraj (mlit [[1; 0]]%Z) (elit [fin 20]) true) /\
  ~ valid_shape exps (mkTraj (mlit [[1; 0; 2]]%Z) (elit [fin 20]) true) /\
  ~ valid_shape exps (mkMixed (mlit [[1; 0]]%Z) (mlit [[1; 0; 2]]%Z) (elit [fin 20]) true).
Proof. vm_compute. intuition discriminate. Qed.
Print Assumptions C13_initialize.

(** ** C14: object-level histories of initializeConstraint (by any controller), update and autoSpan *)
Inductive c_op := CInit (j : junk) (ps : psys) | CUpdate (ps : psys) | CSpan (j : junk).
Definition c_step (c : constr) (o : c_op) : outcome constr :=
  match o with
  | CInit j ps => initializeConstraint j ps c
  | CUpdate ps => of_opt (c_update ps c)
  | CSpan j => c_autoSpan j c
  end.
(** exceptions are caught and the object used further *)
Fixpoint c_run (c : constr) (h : list c_op) : option constr :=
  match h with
  | [] => Some c
  | o :: t => match c_step c o with Ok c' | Throw _ c' => c_run c' t | UB => None end
  end.

Definition once (c : constr) : Prop := (ck c = KCtrl \/ ck c = KCtrlB) /\ hasBeenInit c = true.
Lemma once_step c o c' : once c -> c_step c o = Ok c' \/ (exists e, c_step c o = Throw e c') -> once c'.
Proof.
  intros [K I] H. unfold once. destruct o as [j ps|ps|j]; cbn [c_step] in H.
  - unfold initializeConstraint in H. destruct K as [K|K]; rewrite K in H;
      [unfold ctrl_init in H|unfold ctrlB_init in H]; rewrite I in H;
      (destruct H as [H|[e H]]; [discriminate|injection H as _ <-]); auto.
  - assert (E : c_update ps c = Some c').
    { destruct (c_update ps c); cbn in H; destruct H as [H|[e H]]; congruence. }
    unfold c_update in E. destruct K as [K|K]; rewrite K in E; [unfold ctrl_update in E|unfold ctrlB_update in E];
      (destruct (fullSizeEntry c); [injection E as <-; auto|]);
      (destruct (for_ _ _ _ _) as [s|]; [|discriminate]); cbn [obind] in E; destruct s; injection E as <-; cbn; auto.
  - unfold c_autoSpan in H. destruct K as [K|K]; rewrite K in H; [unfold ctrl_autoSpan in H|unfold ctrlB_autoSpan in H];
      cbv zeta in H; repeat match type of H with context [match ?x with _ => _ end] => destruct x end;
      destruct H as [H|[e' H]]; try discriminate; injection H; intros; subst; cbn; auto.
Qed.
Lemma once_run : forall h c c', once c -> c_run c h = Some c' -> once c'.
Proof.
  induction h as [|o t IH]; intros c c' O H; cbn [c_run] in H.
  - injection H as <-. exact O.
  - destruct (c_step c o) as [c1|e c1|] eqn:E; [| |discriminate].
    + eapply IH; [eapply once_step; [exact O|left; exact E]|exact H].
    + eapply IH; [eapply once_step; [exact O|right; eexists; exact E]|exact H].
Qed.

(** after one accepted initialization, whatever happens to the object in between,
    every later one throws std::runtime_error and changes nothing *)
Theorem C14_initialized_once : forall c0 c1 j1 ps1 h c2 j2 ps2,
  ck c0 = KCtrl \/ ck c0 = KCtrlB ->
  initializeConstraint j1 ps1 c0 = Ok c1 -> c_run c1 h = Some c2 ->
  initializeConstraint j2 ps2 c2 = Throw RuntimeError c2.
Proof.
  intros c0 c1 j1 ps1 h c2 j2 ps2 K H Hr.
  assert (O : once c1).
  { unfold once. destruct (init_keeps _ _ _ _ H) as [K1 _]. rewrite K1. split; [exact K|].
    unfold initializeConstraint in H. destruct K as [K|K]; rewrite K in H; [unfold ctrl_init in H|unfold ctrlB_init in H];
      cbv zeta in H; use_ifs H; reflexivity. }
  destruct (once_run h c1 c2 O Hr) as [K2 I2]. unfold initializeConstraint.
  destruct K2 as [K2|K2]; rewrite K2; [unfold ctrl_init|unfold ctrlB_init]; rewrite I2; reflexivity.
Qed.
(** a rejected first initialization leaves the object as built, so it can still be initialized: C13_initialize *)
Theorem C14_rejection_does_not_consume : forall c0 j ps, fresh_constr c0 ->
  (Z.of_nat (row_count ps c0) <= 2147483647)%Z -> ~ valid_shape ps c0 ->
  initializeConstraint j ps c0 = Throw DomainError c0 /\
  forall j' ps', valid_shape ps' c0 -> (Z.of_nat (row_count ps' c0) <= 2147483647)%Z ->
    exists c1, initializeConstraint j' ps' c0 = Ok c1.
Proof.
  intros c0 j ps Fr Hf V. split; [apply (C13_initialize j ps c0 Fr Hf); exact V|].
  intros j' ps' V' Hf'. destruct (proj1 (C13_initialize j' ps' c0 Fr Hf') V') as [c1 [E _]]. exists c1. exact E.
Qed.
Example C14_example :
  match initializeConstraint j0 exps (mkCtrl (mlit [[1]]%Z) (elit [fin 20]) true) with
  | Ok c1 => match c_run c1 [CUpdate exps; CInit j0 exps; CSpan j0; CUpdate exps] with Some c2 => hasBeenInit c2 | None => false end
  | _ => false end = true.
Proof. vm_compute. reflexivity. Qed.
Print Assumptions C14_initialized_once.
Print Assumptions C14_rejection_does_not_consume.

(** ** C13: an object nobody registered yet has no rows, and already knows its kind *)
Theorem C13_new_object : forall c, fresh_constr c ->
  nrConstr c = 0 /\ rows (cA c) = 0 /\ vsize (cb c) = 0 /\ rows (cY c) = 0 /\ vsize (cz c) = 0 /\
  (forall E f ineq, c = mkTraj E f ineq -> constraintType c = if ineq then InequalityConstraint else EqualityConstraint) /\
  (forall G f ineq, c = mkCtrl G f ineq -> constraintType c = if ineq then InequalityConstraint else EqualityConstraint) /\
  (forall E G f ineq, c = mkMixed E G f ineq -> constraintType c = if ineq then InequalityConstraint else EqualityConstraint) /\
  (forall lo up, c = mkTrajB lo up -> constraintType c = InequalityConstraint) /\ (forall lo up, c = mkCtrlB lo up -> constraintType c = BoundConstraint).
Proof. intros c []; cbn; repeat split; intros; try discriminate; match goal with H : _ = _ |- _ => injection H; intros; subst; reflexivity | _ => reflexivity end. Qed.
Print Assumptions C13_new_object.
