(** Properties_SpanConstraints.v -- C23, C25, C26 (constraints): autoSpan. *)
From Verif Require Import Base Eigen Spec Preview SpecApi AutoSpan Constraints SpecConstraints
  PreviewProofs AutoSpanProofs SpanMeaning ConstraintProofs ConstraintMeaning Checkers Properties_Constraints.

(** ** C23.  Each operand is given per step ([p] rows) or over the horizon ([p*q] rows), at least one of
    them over the horizon.  [part]/[vpart] (SpecApi.v) select the per-step data or the rows of step [k]. *)

Lemma max_full a b p q : 1 <= q -> (a = p \/ a = p * q) -> (b = p \/ b = p * q) -> (a = p * q \/ b = p * q) ->
  Nat.max a b = p * q.
Proof. intros. nia. Qed.

Lemma init_ok_of_valid j ps c0 : fresh_constr c0 -> (Z.of_nat (row_count ps c0) <= 2147483647)%Z -> valid_shape ps c0 ->
  exists c1, initializeConstraint j ps c0 = Ok c1 /\ nrConstr c1 = row_count ps c0.
Proof. intros F H V. destruct (proj1 (C13_initialize j ps c0 F H) V) as [c1 [E [N _]]]. exists c1. auto. Qed.

Lemma updates_nr pss ps ps0 c1 c2 : c_shape ps0 c1 -> solves_with ps0 pss ps ->
  c_updates (pss ++ [ps]) c1 = Some c2 -> nrConstr c2 = nrConstr c1.
Proof.
  intros S H E. destruct (updates_ok ps0 pss ps c1 S H) as [c3 [E3 [O _]]]. rewrite E in E3. injection E3 as <-.
  apply O.
Qed.

Theorem C23_autoSpan_trajectory : forall j j' E f ineq ps0 pss ps p,
  let q := nrXStep ps in
  solves_with ps0 pss ps -> 1 <= p -> 1 <= xDim ps ->
  step_mx p (xDim ps) E \/ full_mx p (xDim ps) q 0 E -> vsize f = p \/ vsize f = p * q ->
  rows E = p * q \/ vsize f = p * q -> (Z.of_nat (p * q) <= 2147483647)%Z ->
  exists c0 c1 c2, c_autoSpan j (mkTraj E f ineq) = Ok c0 /\
    initializeConstraint j' ps0 c0 = Ok c1 /\ c_updates (pss ++ [ps]) c1 = Some c2 /\ nrConstr c2 = p * q /\
    forall U, rows_hold ineq (nrConstr c2) (fullUDim ps) (at_ (cA c2)) (vget (cb c2)) U <->
      forall k i, k < q -> i < p ->
        cmp ineq (part p (xDim ps) q 0 E (stacked_state ps (vget (x0 ps)) U) k i) (vpart p f k i).
Proof.
  intros j j' E f ineq ps0 pss ps p q S Hp Hx HE Hf Hm Hfit.
  destruct (solves_last _ _ _ S) as [R D]. pose proof D as [D1 [D2 [D3 [D4 [D5 D6]]]]].
  assert (Hq : 2 <= q) by (unfold q; rewrite (rd_nx ps R); pose proof (rd_nu ps R); lia).
  destruct (span_part E p (xDim ps) q 0 Hp Hq HE) as [E' [SE [RE [CE ME]]]].
  destruct (span_vpart (jext j 0) f p q Hp ltac:(lia) Hf) as [f' [Sf [Vf Mf]]].
  assert (HrE : rows E = p \/ rows E = p * q) by (destruct HE as [[H _]|[H _]]; auto).
  pose proof (max_full (rows E) (vsize f) p q ltac:(lia) HrE Hf Hm) as Hmax.
  assert (Sp : c_autoSpan j (mkTraj E f ineq) = Ok (mkTraj E' f' ineq)).
  { cbn. unfold traj_autoSpan. cbn [cE cf mkTraj]. unfold zmax. rewrite Hmax. cbn in SE. rewrite SE. rewrite Sf. reflexivity. }
  rewrite Nat.add_0_r in CE.
  assert (CF : cols E' = fullXDim ps) by (rewrite CE, (rd_fx ps R); reflexivity).
  assert (CN : Nat.eqb (cols E') (xDim ps) = false) by (apply Nat.eqb_neq; rewrite CE; nia).
  assert (RC : row_count ps0 (mkTraj E' f' ineq) = p * q).
  { cbn. rewrite <- D1, CN. exact RE. }
  destruct (init_ok_of_valid j' ps0 (mkTraj E' f' ineq)) as [c1 [I1 N1]];
    [constructor|rewrite RC; exact Hfit|unfold valid_shape; cbn; rewrite <- D5; split; [congruence|right; exact CF]|].
  destruct (C07_trajectory_constraint j' E' f' ineq ps0 pss ps c1 I1 S) as [c2 [U2 [_ [_ M]]]].
  exists (mkTraj E' f' ineq), c1, c2. split; [exact Sp|]. split; [exact I1|]. split; [exact U2|].
  split; [rewrite (updates_nr pss ps ps0 c1 c2), N1; [exact RC| |exact S|exact U2]|].
  { eapply init_shape; [exact I1|reflexivity|discriminate]. }
  intro U. rewrite M. unfold traj_means. rewrite CN, RE. rewrite <- CF, CE.
  rewrite <- (step_reindex (fun k i => cmp ineq (part p (xDim ps) q 0 E (stacked_state ps (vget (x0 ps)) U) k i) (vpart p f k i)) p q).
  split; intros H r Hr; specialize (H r Hr); revert H; pose proof Hr as Hr'; rewrite Nat.mul_comm in Hr';
    destruct (blk_div' _ _ _ Hr') as [k [i [Hk [Hi ->]]]]; rewrite blk_quot, blk_rem by exact Hi;
    rewrite <- ME, <- Mf by assumption; rewrite Nat.add_0_r; auto.
Qed.
Print Assumptions C23_autoSpan_trajectory.

Theorem C23_autoSpan_control : forall j j' G f ineq ps0 pss ps p,
  let q := nrUStep ps in
  solves_with ps0 pss ps -> 1 <= p -> 1 <= uDim ps ->
  step_mx p (uDim ps) G \/ full_mx p (uDim ps) q 0 G -> vsize f = p \/ vsize f = p * q ->
  rows G = p * q \/ vsize f = p * q -> (Z.of_nat (p * q) <= 2147483647)%Z ->
  exists c0 c1 c2, c_autoSpan j (mkCtrl G f ineq) = Ok c0 /\
    initializeConstraint j' ps0 c0 = Ok c1 /\ c_updates (pss ++ [ps]) c1 = Some c2 /\ nrConstr c2 = p * q /\
    forall U, rows_hold ineq (nrConstr c2) (fullUDim ps) (at_ (cA c2)) (vget (cb c2)) U <->
      forall k i, k < q -> i < p -> cmp ineq (part p (uDim ps) q 0 G U k i) (vpart p f k i).
Proof.
  intros j j' G f ineq ps0 pss ps p q S Hp Hx HG Hf Hm Hfit.
  destruct (solves_last _ _ _ S) as [R D]. pose proof D as [D1 [D2 [D3 [D4 [D5 D6]]]]].
  assert (Hq : 1 <= q) by (unfold q; apply (rd_nu ps R)).
  assert (HrG : rows G = p \/ rows G = p * q) by (destruct HG as [[H _]|[H _]]; auto).
  pose proof (max_full (rows G) (vsize f) p q Hq HrG Hf Hm) as Hmax.
  (* the spanned operands *)
  assert (P : exists G' f', c_autoSpan j (mkCtrl G f ineq) = Ok (mkCtrl G' f' ineq) /\
     rows G' = p * q /\ cols G' = uDim ps * q /\ vsize f' = p * q /\
     (forall v k i, k < q -> i < p -> apply (uDim ps * q) (at_ G') v (k * p + i) = part p (uDim ps) q 0 G v k i) /\
     (forall k i, k < q -> i < p -> vget f' (k * p + i) = vpart p f k i)).
  { destruct (Nat.eq_dec q 1) as [Q1|Q1].
    - exists G, f. rewrite Q1 in *. rewrite Nat.mul_1_r in *.
      assert (R1 : rows G = p) by tauto. assert (R2 : vsize f = p) by tauto.
      assert (C1 : cols G = uDim ps) by (destruct HG as [[_ H]|[_ H]]; [exact H|rewrite H; lia]).
      split.
      { cbn. unfold ctrl_autoSpan. cbn [cG cf mkCtrl]. unfold zmax. rewrite Hmax. rewrite <- R1 at 1.
        rewrite spanMatrix_same. rewrite <- R2. rewrite spanVector_same. reflexivity. }
      split; [lia|]. split; [lia|]. split; [lia|]. split.
      + intros v k i Hk Hi. assert (k = 0) by lia. subst k. unfold part. rewrite C1, Nat.eqb_refl. rewrite Nat.mul_1_r. reflexivity.
      + intros k i Hk Hi. assert (k = 0) by lia. subst k. unfold vpart. destruct (Nat.eqb (vsize f) p); reflexivity.
    - destruct (span_part G p (uDim ps) q 0 Hp ltac:(lia) HG) as [G' [SG [RG [CG MG]]]].
      destruct (span_vpart (jext j 0) f p q Hp Hq Hf) as [f' [Sf [Vf Mf]]].
      rewrite Nat.add_0_r in CG, MG. exists G', f'. split.
      { cbn. unfold ctrl_autoSpan. cbn [cG cf mkCtrl]. unfold zmax. rewrite Hmax. cbn in SG. rewrite SG. rewrite Sf. reflexivity. }
      repeat (split; [assumption|]). exact Mf. }
  destruct P as [G' [f' [Sp [RG [CG [Vf [MG Mf]]]]]]].
  assert (RC : row_count ps0 (mkCtrl G' f' ineq) = p * q).
  { cbn. rewrite <- D2, <- D3. fold q. destruct (Nat.eqb_spec (cols G') (uDim ps)) as [E|E]; [|exact RG].
    rewrite CG in E. assert (q = 1) by nia. nia. }
  destruct (init_ok_of_valid j' ps0 (mkCtrl G' f' ineq)) as [c1 [I1 N1]];
    [constructor|rewrite RC; exact Hfit|unfold valid_shape; cbn; rewrite <- D6, CG, (rd_fu ps R); split; [congruence|right; reflexivity]|].
  destruct (C08_control_constraint j' G' f' ineq ps0 pss ps c1 I1 S) as [c2 [U2 [_ [_ M]]]].
  exists (mkCtrl G' f' ineq), c1, c2. split; [exact Sp|]. split; [exact I1|]. split; [exact U2|].
  split; [rewrite (updates_nr pss ps ps0 c1 c2), N1; [exact RC| |exact S|exact U2]|].
  { eapply init_shape; [exact I1|reflexivity|discriminate]. }
  intro U. rewrite M. unfold ctrl_means. fold q.
  assert (EqF : fullUDim ps = uDim ps * q) by apply (rd_fu ps R).
  destruct (Nat.eqb_spec (cols G') (uDim ps)) as [E|E].
  - assert (Q1 : q = 1) by (rewrite CG in E; nia). rewrite RG, Q1, Nat.mul_1_r in *.
    split; intros H k i Hk Hi; specialize (H k i Hk Hi); assert (k = 0) by lia; subst k; revert H;
      rewrite <- MG, <- Mf by assumption; cbn [Nat.mul Nat.add];
      unfold control_at; cbn [Nat.mul Nat.add]; auto.
  - rewrite RG, EqF.
    rewrite <- (step_reindex (fun k i => cmp ineq (part p (uDim ps) q 0 G U k i) (vpart p f k i)) p q).
    split; intros H r Hr; specialize (H r Hr); revert H; pose proof Hr as Hr'; rewrite Nat.mul_comm in Hr';
      destruct (blk_div' _ _ _ Hr') as [k [i [Hk [Hi ->]]]]; rewrite blk_quot, blk_rem by exact Hi;
      rewrite <- MG, <- Mf by assumption; auto.
Qed.
Print Assumptions C23_autoSpan_control.

Theorem C23_autoSpan_mixed : forall j j' E G f ineq ps0 pss ps p,
  let q := nrUStep ps in
  solves_with ps0 pss ps -> 1 <= p -> 1 <= xDim ps ->
  step_mx p (xDim ps) E \/ full_mx p (xDim ps) q 1 E -> step_mx p (uDim ps) G \/ full_mx p (uDim ps) q 0 G ->
  vsize f = p \/ vsize f = p * q ->
  rows E = p * q \/ rows G = p * q \/ vsize f = p * q -> (Z.of_nat (p * q) <= 2147483647)%Z ->
  exists c0 c1 c2, c_autoSpan j (mkMixed E G f ineq) = Ok c0 /\
    initializeConstraint j' ps0 c0 = Ok c1 /\ c_updates (pss ++ [ps]) c1 = Some c2 /\ nrConstr c2 = p * q /\
    forall U, rows_hold ineq (nrConstr c2) (fullUDim ps) (at_ (cA c2)) (vget (cb c2)) U <->
      forall k i, k < q -> i < p ->
        cmp ineq (part p (xDim ps) q 1 E (stacked_state ps (vget (x0 ps)) U) k i + part p (uDim ps) q 0 G U k i)%Qc
                 (vpart p f k i).
Proof.
  intros j j' E G f ineq ps0 pss ps p q S Hp Hx HE HG Hf Hm Hfit.
  destruct (solves_last _ _ _ S) as [R D]. pose proof D as [D1 [D2 [D3 [D4 [D5 D6]]]]].
  assert (Hq : 1 <= q) by (unfold q; apply (rd_nu ps R)).
  assert (EqF : fullUDim ps = uDim ps * q) by apply (rd_fu ps R).
  assert (EqX : fullXDim ps = xDim ps * (q + 1)) by (rewrite (rd_fx ps R), (rd_nx ps R); reflexivity).
  assert (HrE : rows E = p \/ rows E = p * q) by (destruct HE as [[H _]|[H _]]; auto).
  assert (HrG : rows G = p \/ rows G = p * q) by (destruct HG as [[H _]|[H _]]; auto).
  assert (Hmax : Nat.max (vsize f) (Nat.max (rows E) (rows G)) = p * q) by nia.
  destruct (Nat.eq_dec q 1) as [Q1|Q1].
  - (* one step: nothing to span *)
    rewrite Q1 in *. rewrite Nat.mul_1_r in *.
    assert (R1 : rows E = p) by tauto. assert (R2 : rows G = p) by tauto. assert (R3 : vsize f = p) by tauto.
    assert (CG : cols G = uDim ps) by (destruct HG as [[_ H]|[_ H]]; [exact H|rewrite H; lia]).
    assert (Sp : c_autoSpan j (mkMixed E G f ineq) = Ok (mkMixed E G f ineq)).
    { cbn. unfold mixed_autoSpan. cbn [cE cG cf mkMixed]. unfold zmax. rewrite Hmax. rewrite <- R1 at 1.
      rewrite spanMatrix_same. rewrite <- R2 at 1. rewrite spanMatrix_same. rewrite <- R3. rewrite spanVector_same. reflexivity. }
    assert (RC : row_count ps0 (mkMixed E G f ineq) = p).
    { cbn. rewrite <- D3. fold q. rewrite Q1. destruct (_ && _); lia. }
    assert (V : valid_shape ps0 (mkMixed E G f ineq)).
    { unfold valid_shape; cbn. rewrite <- D1, <- D2, <- D5, <- D6. split; [congruence|]. split; [congruence|].
      destruct HE as [[_ CE]|[_ CE]]; [left; auto|right; split; [congruence|lia]]. }
    destruct (init_ok_of_valid j' ps0 (mkMixed E G f ineq)) as [c1 [I1 N1]]; [constructor|rewrite RC; exact Hfit|exact V|].
    destruct (C09_mixed_constraint j' E G f ineq ps0 pss ps c1 I1 S) as [c2 [U2 [_ [_ M]]]].
    exists (mkMixed E G f ineq), c1, c2. split; [exact Sp|]. split; [exact I1|]. split; [exact U2|].
    split; [rewrite (updates_nr pss ps ps0 c1 c2), N1; [exact RC| |exact S|exact U2]|].
    { eapply init_shape; [exact I1|reflexivity|discriminate]. }
    intro U. rewrite M. unfold mixed_means. fold q. rewrite Q1, R1, CG, Nat.eqb_refl, andb_true_r.
    unfold part, vpart. rewrite CG, Nat.eqb_refl.
    assert (Sv : forall i, vget f i = if Nat.eqb (vsize f) p then vget f i else vget f (0 * p + i)) by (intro i; rewrite R3, Nat.eqb_refl; reflexivity).
    destruct (Nat.eqb_spec (cols E) (xDim ps)) as [Ec|Ec].
    + split; intros H k i Hk Hi; specialize (H k i Hk Hi); assert (k = 0) by lia; subst k; revert H;
        rewrite R3, Nat.eqb_refl; unfold control_at, apply; cbn [Nat.mul Nat.add];
        rewrite (sum_ext (xDim ps) (fun j0 => at_ E i j0 * stacked_state ps (vget (x0 ps)) U j0)%Qc
                   (fun j0 => at_ E i j0 * state_of ps (vget (x0 ps)) U 0 j0)%Qc); auto;
        intros a Ha; unfold stacked_state; rewrite Nat.div_small, Nat.mod_small by exact Ha; reflexivity.
    + rewrite EqX, EqF. rewrite ?Nat.mul_1_r.
      split; [intros H k i Hk Hi; assert (k = 0) by lia; subst k; specialize (H i Hi)|
              intros H i Hi; specialize (H 0 i ltac:(lia) Hi)]; revert H; rewrite R3, Nat.eqb_refl; cbn [Nat.mul Nat.add]; auto.
  - (* all three operands become full-size *)
    destruct (span_part E p (xDim ps) q 1 Hp ltac:(lia) HE) as [E' [SE [RE [CE ME]]]].
    destruct (span_part G p (uDim ps) q 0 Hp ltac:(lia) HG) as [G' [SG [RG [CG MG]]]].
    destruct (span_vpart (jext j 0) f p q Hp Hq Hf) as [f' [Sf [Vf Mf]]].
    rewrite Nat.add_0_r in CG, MG.
    assert (Sp : c_autoSpan j (mkMixed E G f ineq) = Ok (mkMixed E' G' f' ineq)).
    { cbn. unfold mixed_autoSpan. cbn [cE cG cf mkMixed]. unfold zmax. rewrite Hmax.
      cbn in SE, SG. rewrite SE, SG, Sf. reflexivity. }
    assert (CN : Nat.eqb (cols E') (xDim ps) = false) by (apply Nat.eqb_neq; rewrite CE; nia).
    assert (RC : row_count ps0 (mkMixed E' G' f' ineq) = p * q).
    { cbn. rewrite <- D1, CN. exact RE. }
    destruct (init_ok_of_valid j' ps0 (mkMixed E' G' f' ineq)) as [c1 [I1 N1]]; [constructor|rewrite RC; exact Hfit| |].
    { unfold valid_shape; cbn. rewrite <- D5, <- D6. split; [congruence|]. split; [congruence|]. right. split; congruence. }
    destruct (C09_mixed_constraint j' E' G' f' ineq ps0 pss ps c1 I1 S) as [c2 [U2 [_ [_ M]]]].
    exists (mkMixed E' G' f' ineq), c1, c2. split; [exact Sp|]. split; [exact I1|]. split; [exact U2|].
    split; [rewrite (updates_nr pss ps ps0 c1 c2), N1; [exact RC| |exact S|exact U2]|].
    { eapply init_shape; [exact I1|reflexivity|discriminate]. }
    intro U. rewrite M. unfold mixed_means. rewrite CN. cbn [andb]. rewrite RE, EqF, EqX.
    rewrite <- (step_reindex (fun k i => cmp ineq (part p (xDim ps) q 1 E (stacked_state ps (vget (x0 ps)) U) k i
                   + part p (uDim ps) q 0 G U k i)%Qc (vpart p f k i)) p q).
    split; intros H r Hr; specialize (H r Hr); revert H; pose proof Hr as Hr'; rewrite Nat.mul_comm in Hr';
      destruct (blk_div' _ _ _ Hr') as [k [i [Hk [Hi ->]]]]; rewrite blk_quot, blk_rem by exact Hi;
      rewrite <- ME, <- MG, <- Mf by assumption; auto.
Qed.
Print Assumptions C23_autoSpan_mixed.

(** per-step E and G, horizon-long right-hand side, on the 2-state example *)
Example C23_example :
  match c_autoSpan j0 (mkMixed (mlit [[1; 1]]%Z) (mlit [[2]]%Z) (elit [fin 15; fin 25; fin 25]) true) with
  | Ok c0 => match initializeConstraint j0 exps c0 with
    | Ok c1 => match c_updates [exps] c1 with
      | Some c2 => rows_holdb true (nrConstr c2) (fullUDim exps) (at_ (cA c2)) (vget (cb c2)) (vget exU)
                   && negb (rows_holdb true (nrConstr c2) (fullUDim exps) (at_ (cA c2)) (vget (cb c2)) (vget (vlit [6; 6; 1]%Z)))
      | None => false end
    | _ => false end
  | _ => false end = true.
Proof. vm_compute. reflexivity. Qed.

(** ** C25: false of the code.  autoSpan repeats the bounds but keeps the line lists computed by the
    constructor (constraints.cpp 246-260 compare sizes that are equal by then), so only the first
    step is bounded by the repeated side.  The witness uses the upper side (the lower one is wrong anyway, C10). *)

(** upper bound 5 per step, no lower bound over the horizon: a control leading to x_1 = 10 is accepted *)
Theorem C25_autoSpan_trajectory_bound_refuted :
  exists ps lower upper c0 c1 c2 U, ready ps /\ vsize upper = xDim ps /\ vsize lower = fullXDim ps /\
    c_autoSpan j0 (mkTrajB lower upper) = Ok c0 /\
    initializeConstraint j0 ps c0 = Ok c1 /\ c_updates [ps] c1 = Some c2 /\
    rows_hold true (nrConstr c2) (fullUDim ps) (at_ (cA c2)) (vget (cb c2)) U /\
    ~ (forall k i, k < nrXStep ps -> i < xDim ps -> q_le_ext (state_of ps (vget (x0 ps)) U k i) (vget upper i)).
Proof.
  destruct (c_autoSpan j0 (mkTrajB (elit [NInf; NInf]) (elit [fin 5]))) as [c0| |] eqn:E0; [|discriminate E0|discriminate E0].
  destruct (initializeConstraint j0 (sps 0 1) c0) as [c1| |] eqn:E1;
    [|exfalso; injection E0 as <-; discriminate E1|exfalso; injection E0 as <-; discriminate E1].
  destruct (c_updates [sps 0 1] c1) as [c2|] eqn:E2.
  2:{ exfalso. injection E0 as <-. injection E1 as <-.
      assert (G : match c_updates [sps 0 1] (resize_rows j0 (sps 0 1) (set_bounds (mkTrajB (elit [NInf; NInf]) (elit [fin 5])) (elit [NInf; NInf])
          {| vsize := 2; vget := vget (elit [fin 5; fin 5]) |} [] [0]) 1 true) with Some _ => true | None => false end = true)
        by (vm_compute; reflexivity).
      revert E2. vm_compute. discriminate. }
  exists (sps 0 1), (elit [NInf; NInf]), (elit [fin 5]), c0, c1, c2, (fun _ => qz 10).
  split; [apply sps_ready; auto|]. split; [vm_compute; reflexivity|]. split; [vm_compute; reflexivity|].
  split; [exact E0|]. split; [exact E1|]. split; [exact E2|]. split.
  - apply rows_holdb_ok. injection E0 as <-. injection E1 as <-.
    revert E2. vm_compute. intro E2. injection E2 as <-. reflexivity.
  - intro H. specialize (H 1 0 ltac:(vm_compute; lia) ltac:(vm_compute; lia)). apply q_le_extb_ok in H.
    vm_compute in H. discriminate H.
Qed.
Print Assumptions C25_autoSpan_trajectory_bound_refuted.

(** What is true: bounds that already have the same length are left as they are. *)
Theorem C25_autoSpan_trajectory_bound_same_size_partial : forall j lower upper,
  vsize lower = vsize upper -> c_autoSpan j (mkTrajB lower upper) = Ok (mkTrajB lower upper).
Proof.
  intros j lo up H. cbn. unfold trajB_autoSpan. cbn [clower cupper mkTrajB]. unfold zmax.
  rewrite <- H, Nat.max_id. rewrite spanVector_same. rewrite H at 1. rewrite spanVector_same.
  rewrite <- H, Z.eqb_refl. reflexivity.
Qed.
Print Assumptions C25_autoSpan_trajectory_bound_same_size_partial.

(** ** C23 for control bounds: one bound per step, the other over the horizon *)
Theorem C23_autoSpan_control_bound : forall j j' lower upper ps0 pss ps,
  let q := nrUStep ps in let m := uDim ps in
  solves_with ps0 pss ps -> 1 <= m ->
  vsize lower = m \/ vsize lower = m * q -> vsize upper = m \/ vsize upper = m * q ->
  vsize lower = m * q \/ vsize upper = m * q -> (Z.of_nat (m * q) <= 2147483647)%Z ->
  exists c0 c1 c2, c_autoSpan j (mkCtrlB lower upper) = Ok c0 /\
    initializeConstraint j' ps0 c0 = Ok c1 /\ c_updates (pss ++ [ps]) c1 = Some c2 /\
    forall U, within_bounds (fullUDim ps) (vget (clb c2)) (vget (cub c2)) U <->
      forall k i, k < q -> i < m ->
        ext_le_q (vpart m lower k i) (U (k * m + i)) /\ q_le_ext (U (k * m + i)) (vpart m upper k i).
Proof.
  intros j j' lo up ps0 pss ps q m S Hm Hl Hu Hx Hfit.
  destruct (solves_last _ _ _ S) as [R D]. pose proof D as [D1 [D2 [D3 [D4 [D5 D6]]]]].
  assert (Hq : 1 <= q) by (unfold q; apply (rd_nu ps R)).
  assert (EqF : fullUDim ps = m * q) by apply (rd_fu ps R).
  pose proof (max_full (vsize lo) (vsize up) m q Hq Hl Hu Hx) as Hmax.
  destruct (span_vpart (jext j 0) lo m q Hm Hq Hl) as [lo' [Sl [Vl Ml]]].
  destruct (span_vpart (jext j 1) up m q Hm Hq Hu) as [up' [Su [Vu Mu]]].
  assert (Sp : c_autoSpan j (mkCtrlB lo up) = Ok (mkCtrlB lo' up')).
  { cbn. unfold ctrlB_autoSpan. cbn [clower cupper mkCtrlB]. unfold zmax. rewrite Hmax, Sl, Su. reflexivity. }
  destruct (init_ok_of_valid j' ps0 (mkCtrlB lo' up')) as [c1 [I1 _]];
    [constructor|cbn; rewrite <- D6, EqF; exact Hfit|unfold valid_shape; cbn; rewrite <- D6, EqF; split; [congruence|right; exact Vl]|].
  destruct (C11_control_bound j' lo' up' ps0 pss ps c1 I1 S) as [c2 [U2 [_ [_ [_ [_ [_ M]]]]]]].
  exists (mkCtrlB lo' up'), c1, c2. split; [exact Sp|]. split; [exact I1|]. split; [exact U2|].
  intro U. rewrite M. unfold ctrl_between, within_bounds. fold m q.
  destruct (Nat.eqb_spec (vsize lo') m) as [E|E].
  - assert (Q1 : q = 1) by nia. split.
    + intros H k i Hk Hi. specialize (H k Hk i Hi). unfold control_at in H.
      rewrite <- Ml, <- Mu by assumption. assert (k = 0) by lia. subst k. exact H.
    + intros H k Hk i Hi. specialize (H k i Hk Hi). rewrite <- Ml, <- Mu in H by assumption. unfold control_at.
      assert (k = 0) by lia. subst k. exact H.
  - rewrite EqF. split.
    + intros H k i Hk Hi. rewrite <- Ml, <- Mu by assumption. apply H. nia.
    + intros H r Hr. rewrite Nat.mul_comm in Hr. destruct (blk_div' _ _ _ Hr) as [k [i [Hk [Hi ->]]]].
      specialize (H k i Hk Hi). rewrite <- Ml, <- Mu in H by assumption. exact H.
Qed.
Print Assumptions C23_autoSpan_control_bound.

(** lower bound -1 at every step, upper bounds 1, 2, 3 *)
Example C23_bound_example :
  match c_autoSpan j0 (mkCtrlB (elit [fin (-1)]) (elit [fin 1; fin 2; fin 3])) with
  | Ok c0 => match initializeConstraint j0 exps c0 with
    | Ok c1 => match c_updates [exps] c1 with
      | Some c2 => within_boundsb (fullUDim exps) (vget (clb c2)) (vget (cub c2)) (vget (vlit [1; 2; 3]%Z))
                   && negb (within_boundsb (fullUDim exps) (vget (clb c2)) (vget (cub c2)) (vget (vlit [1; 2; -2]%Z)))
      | None => false end
    | _ => false end
  | _ => false end = true.
Proof. vm_compute. reflexivity. Qed.

(** ** C26 (constraints): an autoSpan that throws leaves a two-operand object as it was *)

Lemma spanMatrix_throw M nd ac e M' : spanMatrix M nd ac = Throw e M' -> e = DomainError /\ M' = M.
Proof.
  unfold spanMatrix. destruct (_ =? _)%Z; [discriminate|]. destruct (Nat.eqb _ _); [discriminate|].
  destruct (negb _); [intro H; injection H; auto|]. destruct (_ || _); [discriminate|].
  destruct (for_ _ _ _ _); discriminate.
Qed.
Lemma spanVector_throw {T} (jk : nat -> T) v nd e v' : spanVector jk v nd = Throw e v' -> e = DomainError /\ v' = v.
Proof.
  unfold spanVector. destruct (_ =? _)%Z; [discriminate|]. destruct (Nat.eqb _ _); [discriminate|].
  destruct (negb _); [intro H; injection H; auto|]. destruct (_ <? _)%Z; [discriminate|].
  destruct (for_ _ _ _ _); discriminate.
Qed.
Lemma set_EGf_id c : set_EGf c (cE c) (cG c) (cf c) = c.
Proof. destruct c; reflexivity. Qed.
Lemma set_bounds_id c : set_bounds c (clower c) (cupper c) (lowerLines c) (upperLines c) = c.
Proof. destruct c; reflexivity. Qed.
Lemma zmax_cases a b : zmax a b = Z.of_nat a \/ zmax a b = Z.of_nat b.
Proof. unfold zmax. lia. Qed.

Theorem C26_constraint_autoSpan_failure : forall j c e c',
  ck c <> KMixed -> c_autoSpan j c = Throw e c' -> e = DomainError /\ c' = c.
Proof.
  intros j c e c' K. unfold c_autoSpan. destruct (ck c); [| |congruence| |].
  - unfold traj_autoSpan. destruct (zmax_cases (rows (cE c)) (vsize (cf c))) as [-> | ->].
    + rewrite spanMatrix_same. destruct (spanVector _ _ _) as [|e1 v|] eqn:E; try discriminate.
      intro H; injection H as <- <-. apply spanVector_throw in E. destruct E as [-> ->]. rewrite set_EGf_id. auto.
    + destruct (spanMatrix _ _ _) as [|e1 v|] eqn:E; try discriminate.
      * rewrite spanVector_same. discriminate.
      * intro H; injection H as <- <-. apply spanMatrix_throw in E. destruct E as [-> ->]. rewrite set_EGf_id. auto.
  - unfold ctrl_autoSpan. destruct (zmax_cases (rows (cG c)) (vsize (cf c))) as [-> | ->].
    + rewrite spanMatrix_same. destruct (spanVector _ _ _) as [|e1 v|] eqn:E; try discriminate.
      intro H; injection H as <- <-. apply spanVector_throw in E. destruct E as [-> ->]. rewrite set_EGf_id. auto.
    + destruct (spanMatrix _ _ _) as [|e1 v|] eqn:E; try discriminate.
      * rewrite spanVector_same. discriminate.
      * intro H; injection H as <- <-. apply spanMatrix_throw in E. destruct E as [-> ->]. rewrite set_EGf_id. auto.
  - unfold trajB_autoSpan. destruct (zmax_cases (vsize (clower c)) (vsize (cupper c))) as [-> | ->].
    + rewrite spanVector_same. destruct (spanVector _ _ _) as [|e1 v|] eqn:E; try discriminate.
      intro H; injection H as <- <-. apply spanVector_throw in E. destruct E as [-> ->]. rewrite set_bounds_id. auto.
    + destruct (spanVector (jext j 0) _ _) as [|e1 v|] eqn:E; try discriminate.
      * rewrite spanVector_same. discriminate.
      * intro H; injection H as <- <-. apply spanVector_throw in E. destruct E as [-> ->]. rewrite set_bounds_id. auto.
  - unfold ctrlB_autoSpan. destruct (zmax_cases (vsize (clower c)) (vsize (cupper c))) as [-> | ->].
    + rewrite spanVector_same. destruct (spanVector _ _ _) as [|e1 v|] eqn:E; try discriminate.
      intro H; injection H as <- <-. apply spanVector_throw in E. destruct E as [-> ->]. rewrite set_bounds_id. auto.
    + destruct (spanVector (jext j 0) _ _) as [|e1 v|] eqn:E; try discriminate.
      * rewrite spanVector_same. discriminate.
      * intro H; injection H as <- <-. apply spanVector_throw in E. destruct E as [-> ->]. rewrite set_bounds_id. auto.
Qed.
Print Assumptions C26_constraint_autoSpan_failure.

(** the hypotheses are met: 2 rows against 3 right-hand sides *)
Example C26_example :
  match c_autoSpan j0 (mkTraj (mlit [[1; 0]; [0; 1]]%Z) (elit [fin 1; fin 2; fin 3]) true) with
  | Throw DomainError c => Nat.eqb (rows (cE c)) 2 && Nat.eqb (vsize (cf c)) 3 | _ => false end = true.
Proof. vm_compute. reflexivity. Qed.

(** false of MixedConstraint: E (1 row) is spanned to 3 rows before G (2 rows) is rejected *)
Theorem C26_mixed_constraint_autoSpan_refuted :
  exists E G f e c', c_autoSpan j0 (mkMixed E G f true) = Throw e c' /\ rows (cE c') <> rows E.
Proof.
  exists (mlit [[1; 0]]%Z), (mlit [[1]; [2]]%Z), (elit [fin 1; fin 2; fin 3]).
  destruct (c_autoSpan j0 _) as [c|e c|] eqn:E.
  - exfalso. assert (X : match c_autoSpan j0 (mkMixed (mlit [[1; 0]]%Z) (mlit [[1]; [2]]%Z) (elit [fin 1; fin 2; fin 3]) true)
                    with Ok _ => true | _ => false end = false) by (vm_compute; reflexivity). rewrite E in X. discriminate X.
  - exists e, c. split; [reflexivity|].
    assert (X : match c_autoSpan j0 (mkMixed (mlit [[1; 0]]%Z) (mlit [[1]; [2]]%Z) (elit [fin 1; fin 2; fin 3]) true)
                    with Throw _ c => rows (cE c) | _ => 0 end = 3) by (vm_compute; reflexivity). rewrite E in X. rewrite X.
    vm_compute. lia.
  - exfalso. assert (X : match c_autoSpan j0 (mkMixed (mlit [[1; 0]]%Z) (mlit [[1]; [2]]%Z) (elit [fin 1; fin 2; fin 3]) true)
                    with UB => true | _ => false end = false) by (vm_compute; reflexivity). rewrite E in X. discriminate X.
Qed.
Print Assumptions C26_mixed_constraint_autoSpan_refuted.
