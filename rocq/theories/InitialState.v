(** InitialState.v -- feasible set and objective of the problem of one solve of InitialStateLMPC. *)
From Verif Require Import Base Eigen Spec Preview SpecApi PreviewProofs AutoSpan AutoSpanProofs Constraints ConstraintProofs
  SpecConstraints ConstraintMeaning Checkers Costs SpecCosts CostProofs CostMeaning Controller Registry SpecController Assembly
  Properties_Assembly Results Properties_Results SpecProtocol Protocol Properties_Protocol SpecEndToEnd SpanData Properties_Registry
  EndToEnd EndToEndQP EndToEndRows EndToEndMain Convex Properties_EndToEnd Determined.

(** ** Blocks *)
Lemma apply_blocks a b M X r :
  apply (a + b) M X r = (apply a M X r + apply b (fun i j => M i (a + j)%nat) (ctrl_part a X) r)%Qc.
Proof. unfold apply. rewrite sum_plus. reflexivity. Qed.
Lemma quad_blocks a b Q X :
  quad (a + b) Q X = (quad a Q X + quad b (fun i j => Q (a + i)%nat (a + j)%nat) (ctrl_part a X)
    + sum b (fun j => sum a (fun i => (Q i (a + j)%nat + Q (a + j)%nat i) * X i) * ctrl_part a X j))%Qc.
Proof.
  unfold quad. rewrite sum_plus.
  rewrite (sum_ext a _ (fun i => X i * apply a Q X i + X i * apply b (fun i j => Q i (a + j)%nat) (ctrl_part a X) i)%Qc) by (intros; rewrite apply_blocks; ring).
  rewrite (sum_ext b (fun i => X (a + i)%nat * _)%Qc (fun i => ctrl_part a X i * apply a (fun k j => Q (a + k)%nat j) X i
      + ctrl_part a X i * apply b (fun i j => Q (a + i)%nat (a + j)%nat) (ctrl_part a X) i)%Qc)
    by (intros i Hi; rewrite apply_blocks; unfold ctrl_part, apply; ring).
  rewrite !sum_add.
  assert (E1 : sum a (fun i => X i * apply b (fun i j => Q i (a + j)%nat) (ctrl_part a X) i)%Qc
             = sum b (fun j => sum a (fun i => Q i (a + j)%nat * X i) * ctrl_part a X j)%Qc).
  { unfold apply. rewrite (sum_ext a _ (fun i => sum b (fun j => Q i (a + j)%nat * X i * ctrl_part a X j)%Qc)) by (intros; rewrite <- sum_scal_l; apply sum_ext; intros; ring).
    rewrite sum_swap. apply sum_ext. intros j Hj. rewrite <- sum_scal_r. reflexivity. }
  assert (E2 : sum b (fun i => ctrl_part a X i * apply a (fun k j => Q (a + k)%nat j) X i)%Qc
             = sum b (fun j => sum a (fun i => Q (a + j)%nat i * X i) * ctrl_part a X j)%Qc) by (apply sum_ext; intros; unfold apply; ring).
  rewrite E1, E2.
  assert (E3 : sum b (fun j => sum a (fun i => (Q i (a + j)%nat + Q (a + j)%nat i) * X i) * ctrl_part a X j)%Qc
    = (sum b (fun j => sum a (fun i => Q i (a + j)%nat * X i) * ctrl_part a X j) + sum b (fun j => sum a (fun i => Q (a + j)%nat i * X i) * ctrl_part a X j))%Qc).
  { rewrite <- sum_add. apply sum_ext. intros j Hj. rewrite <- Qcmult_plus_distr_l, <- sum_add. f_equal. apply sum_ext. intros. ring. }
  rewrite E3. ring.
Qed.
Lemma objective_blocks a b Q c X (E : nat -> nat -> Qc) :
  (forall i j, i < a -> j < b -> Q i (a + j)%nat = E i j /\ Q (a + j)%nat i = E i j) ->
  objective (a + b) Q c X = (objective a Q c X
    + objective b (fun i j => Q (a + i)%nat (a + j)%nat) (fun j => sum a (fun i => E i j * X i) + c (a + j)%nat) (ctrl_part a X))%Qc.
Proof.
  intro HE. unfold objective. fold (quad (a + b) Q X) (quad a Q X) (quad b (fun i j => Q (a + i)%nat (a + j)%nat) (ctrl_part a X)).
  rewrite quad_blocks, sum_plus.
  assert (E1 : sum b (fun j => sum a (fun i => (Q i (a + j)%nat + Q (a + j)%nat i) * X i) * ctrl_part a X j)%Qc
    = (sum b (fun j => sum a (fun i => E i j * X i) * ctrl_part a X j) + sum b (fun j => sum a (fun i => E i j * X i) * ctrl_part a X j))%Qc).
  { rewrite <- sum_add. apply sum_ext. intros j Hj. rewrite <- Qcmult_plus_distr_l, <- sum_add. f_equal. apply sum_ext. intros i Hi. destruct (HE i j Hi Hj) as [-> ->]. ring. }
  rewrite E1. rewrite (sum_ext b (fun i => (_ + _) * _)%Qc (fun j => sum a (fun i => E i j * X i) * ctrl_part a X j + c (a + j)%nat * X (a + j)%nat)%Qc)
    by (intros; unfold ctrl_part; ring).
  rewrite sum_add. set (s := sum b (fun j => sum a (fun i => E i j * X i) * ctrl_part a X j)%Qc). pose proof (half_split s) as Hs.
  replace (half * (quad a Q X + quad b (fun i j => Q (a + i)%nat (a + j)%nat) (ctrl_part a X) + (s + s)))%Qc
    with (half * quad a Q X + half * quad b (fun i j => Q (a + i)%nat (a + j)%nat) (ctrl_part a X) + (half * s + half * s))%Qc by ring.
  rewrite Hs. ring.
Qed.

(** ** The bounds of the controls stay free until a control bound has been solved with *)
Section IS.
Variables n m N : nat.
Hypothesis SF : sizes_fit n m N.
Let D := dps n m N.
Definition free_tail (w : world) : Prop :=
  forall i, (m_is (ctl w) = None \/ n <= i) ->
    (i < vsize (qlb (m_qp (ctl w))) -> vget (qlb (m_qp (ctl w))) i = no_lower) /\
    (i < vsize (qub (m_qp (ctl w))) -> vget (qub (m_qp (ctl w))) i = no_upper).
Lemma free_tail_inv h w : follows_protocol n m N world0 h -> reached h w -> stale world0 false h = false -> free_tail w.
Proof using SF.
  intros F R. refine (proj1 (protocol_ind n m N SF (fun h w => stale world0 false h = false -> free_tail w) _ _ h w F R)); clear h w F R.
  - intros _ i _. split; cbn; lia.
  - intros h w o w' R F P L S IH St. rewrite (stale_snoc o h world0 false w R) in St.
    pose proof (step_bounds _ _ _ S) as B.
    assert (Fr : free_bounds (ctl w') -> free_tail w') by (intros [B1 B2] i _; auto).
    destruct o; cbn [stale_op] in St; try (apply Fr; exact B);
      try (destruct B as [B1 B2]; intros k0 Hk0; rewrite B1; apply (IH St k0); destruct Hk0 as [Hk0|Hk0]; auto).
    destruct B as [b B]. destruct (spB (ctl w)) eqn:Es; [|discriminate]. destruct (solve_keeps_is _ _ _ _ B) as [K1 K2].
    destruct (solve_has_ps _ _ _ _ B) as [p Ep]. destruct (pi_m _ _ P p Ep) as [Np Qs].
    destruct (m_is (ctl w)) as [s|] eqn:Ei.
    + assert (DM : xDim (wps w' p) = n /\ fullUDim (wps w' p) = m * N).
      { destruct (solve_objs _ _ _ _ B) as [p' [ps [wc [wk [Ep' [Eu [_ [_ [Hw _]]]]]]]]]. rewrite Ep in Ep'. injection Ep' as <-.
        destruct (ensure_live _ _ (pi_ps _ _ P p Np)) as [ps' [Eu' [Lp _]]]. rewrite Eu in Eu'. injection Eu' as <-.
        rewrite Hw. replace (upd (wps w) p ps p) with ps by (unfold upd; rewrite Nat.eqb_refl; reflexivity). destruct Lp as [SD _]. split; apply SD. }
      destruct DM as [DM1 DM2].
      assert (A := C28_assembly_initial_state h w p s e b w' R Ep Ei B). cbv zeta in A. rewrite DM1, DM2 in A.
      unfold opt in Qs. rewrite Ei in Qs. specialize (A (proj1 (proj2 (proj2 Qs)))).
      destruct A as [_ [_ [_ [_ [_ [_ [_ [_ [_ [_ [_ [_ [_ [V1 [V2 [_ [B0 _]]]]]]]]]]]]]]]]]. specialize (B0 Es).
      intros i [Hi|Hi]; [congruence|]. destruct (B0 i Hi) as [-> ->]. rewrite V1, V2. apply (IH St i). auto.
    + destruct (C28_assembly h w p e b w' R Ep Ei B) as [_ [_ [_ [_ [_ [_ [_ [_ [_ [_ [Hb _]]]]]]]]]]]. cbv zeta in Hb.
      destruct (Hb Es) as [Q1 Q2]. intros i _. rewrite Q1, Q2. apply (IH St i). auto.
Qed.

Variables (h : list op) (w : world) (p : nat) (s : ist) (e : senv) (b : bool) (w' : world).
Hypothesis S : solved n m N h w p e b w'.
Hypothesis Is : m_is (ctl w) = Some s.
Let FP := sd_FP _ _ _ _ _ _ _ _ _ S.
Let RE := sd_RE _ _ _ _ _ _ _ _ _ S.
Let HO := sd_HO _ _ _ _ _ _ _ _ _ S.
Let Ep := sd_Ep _ _ _ _ _ _ _ _ _ S.
Let So := sd_So _ _ _ _ _ _ _ _ _ S.

Lemma si_dims : xDim (wps w' p) = n /\ fullUDim (wps w' p) = m * N /\ qp_sized (n + m * N) (m_qp (ctl w)) /\ qp_sized (n + m * N) (m_qp (ctl w')).
Proof using S Is SF.
  pose proof (sd_pinv _ _ _ _ _ _ _ _ _ S) as P. destruct (pi_m _ _ P p Ep) as [Np Qs]. unfold opt in Qs. rewrite Is in Qs.
  destruct (sd_ps _ _ _ _ _ _ _ _ _ S) as [_ [SD _]]. split; [apply SD|]. split; [apply SD|]. split; [exact Qs|].
  destruct (solve_qp _ _ _ _ So) as [w1 [Eb [-> _]]]. destruct (build_sizes _ _ _ Eb) as [B1 [B2 [B3 [B4 B5]]]].
  unfold qp_sized. rewrite B1, B2, B3, B4, B5. exact Qs.
Qed.
Lemma si_well_sized : well_sized (n + m * N) (rows (qAeq (m_qp (ctl w')))) (rows (qAineq (m_qp (ctl w')))) (m_qp (ctl w')).
Proof using S Is SF.
  destruct si_dims as [D1 [D2 [Qw [Q1 [Q2 [Q3 [Q4 Q5]]]]]]].
  assert (A := C28_assembly_initial_state h w p s e b w' RE Ep Is So). cbv zeta in A. rewrite D1, D2 in A.
  specialize (A (proj1 (proj2 (proj2 Qw)))).
  destruct A as [_ [_ [_ [_ [_ [_ [_ [_ [_ [_ [_ [SE [SI _]]]]]]]]]]]]].
  destruct SE as [SE1 [SE2 [SE3 _]]]. destruct SI as [SI1 [SI2 [SI3 _]]].
  unfold well_sized. repeat split; try assumption; try reflexivity; [rewrite SE3, SE1|rewrite SI3, SI1]; reflexivity.
Qed.
Lemma si_called : well_sized (vsize (qc (m_qp (ctl w')))) (nrEq (ctl w')) (nrIneq (ctl w')) (m_qp (ctl w')).
Proof using S Is SF.
  pose proof si_well_sized as W. destruct si_dims as [D1 [D2 [Qw _]]].
  assert (A := C28_assembly_initial_state h w p s e b w' RE Ep Is So). cbv zeta in A. rewrite D1, D2 in A.
  specialize (A (proj1 (proj2 (proj2 Qw)))). destruct A as [_ [N1 [N2 _]]]. rewrite N1, N2.
  destruct W as [W1 [W2 [W3 W]]]. rewrite W3. unfold well_sized. tauto.
Qed.
Lemma si_con_rows i d X : callable world0 h -> In i (spC (ctl w)) -> even_bounds h i -> con_data_of h i = Some d -> ck (wcon w i) <> KCtrlB ->
  (rows_hold (isIneq (wcon w i)) (nrConstr (wcon w' i)) (n + m * N)
     (fun r j => if j <? n then at_ (cY (wcon w' i)) r j else at_ (cA (wcon w' i)) r (j - n)) (vget (cz (wcon w' i))) X <->
   imposes (wps w' p) d X (ctrl_part n X)).
Proof using S SF Is.
  intros CA Hi NS Ed NB. destruct (sv_valid n m N SF h w p e b w' FP RE HO Ep So i d CA Hi NS Ed) as [Vs _]. destruct (sv_con n m N SF h w p e b w' FP RE HO Ep So i CA Hi NS) as [d' [Ed' [G1 [G2 [G3 [G4 G5]]]]]]. rewrite Ed in Ed'. injection Ed' as <-.
  destruct (sd_ps _ _ _ _ _ _ _ _ _ S) as [R [SD _]]. destruct si_dims as [D1 [D2 _]].
  rewrite <- (imposes_alike _ _ d _ _ G1 Vs), <- (inited_row_means D _ _ X (ctrl_part n X) R SD G3 G2 NB), G5. unfold rows_hold, row_means.
  assert (Q : forall r, r < nrConstr (wcon w i) ->
    (cmp (isIneq (wcon w i)) (apply (n + m * N) (fun r j => if j <? n then at_ (cY (wcon w' i)) r j else at_ (cA (wcon w' i)) r (j - n)) X r) (vget (cz (wcon w' i)) r) <->
     cmp (isIneq (wcon w i)) (c_lin (wps w' p) (wcon w i) r X (ctrl_part n X)) (c_rhs (wps w' p) (wcon w i) r))).
  { intros r Hr. destruct (proj1 G4 NB r Hr) as [k [Z [_ L]]]. rewrite Z, cmp_sub, <- L, D1, D2, apply_blocks.
    assert (T1 : apply n (fun r j => if j <? n then at_ (cY (wcon w' i)) r j else at_ (cA (wcon w' i)) r (j - n)) X r = sum n (fun j => at_ (cY (wcon w' i)) r j * X j)%Qc).
    { unfold apply. apply sum_ext. intros j Hj. rewrite (proj2 (Nat.ltb_lt _ _) Hj). reflexivity. }
    assert (T2 : apply (m * N) (fun r j => if n + j <? n then at_ (cY (wcon w' i)) r (n + j) else at_ (cA (wcon w' i)) r (n + j - n)) (ctrl_part n X) r
               = sum (m * N) (fun j => at_ (cA (wcon w' i)) r j * ctrl_part n X j)%Qc).
    { unfold apply. apply sum_ext. intros j Hj. rewrite (proj2 (Nat.ltb_ge _ _)) by lia. replace (n + j - n) with j by lia. reflexivity. }
    rewrite T1, T2. reflexivity. }
  split; intros H r Hr; apply (Q r Hr); apply (H r Hr).
Qed.

Lemma si_feasible X : callable world0 h -> (spB (ctl w) <> [] \/ stale world0 false h = false) ->
  (forall i, In i (spC (ctl w)) -> even_bounds h i) ->
  (feasible (m_qp (ctl w')) X <->
   within_bounds n (vget (isx0lb s)) (vget (isx0ub s)) X /\
   all_imposed_from (wps w' p) h (spC (ctl w)) X (ctrl_part n X) /\ (spB (ctl w) = [] -> representable (m * N) (ctrl_part n X))).
Proof using S SF Is.
  intros CA St NS. pose proof (sd_pinv _ _ _ _ _ _ _ _ _ S) as P. destruct (sd_ps _ _ _ _ _ _ _ _ _ S) as [R [SD _]].
  destruct si_dims as [D1 [D2 [[_ [_ [Y0 [Y1 Y2]]]] [_ [_ [_ [Z1 Z2]]]]]]].
  assert (A := C28_assembly_initial_state h w p s e b w' RE Ep Is So). cbv zeta in A. rewrite D1, D2 in A. specialize (A Y0).
  destruct A as [_ [_ [_ [_ [_ [_ [_ [_ [_ [_ [_ [SE [SI [V1 [V2 [BX [B0 B1]]]]]]]]]]]]]]]]].
  pose proof (pi_reg _ _ P) as RI.
  unfold feasible. rewrite (stacked_holds false _ _ _ _ _ _ _ X SE), (stacked_holds true _ _ _ _ _ _ _ X SI). rewrite (ri_eq _ RI), (ri_ineq _ RI).
  assert (TY : forall i, In i (spC (ctl w)) -> exists d, con_data_of h i = Some d).
  { intros i Hi. destruct (sv_con n m N SF h w p e b w' FP RE HO Ep So i CA Hi (NS i Hi)) as [d [Ed _]]. eauto. }
  assert (IQ : forall i, In i (spC (ctl w)) -> ck (wcon w i) = KTrajB -> isIneq (wcon w i) = true).
  { intros i Hi Q. destruct (sv_con n m N SF h w p e b w' FP RE HO Ep So i CA Hi (NS i Hi)) as [d [_ [_ [LF _]]]]. apply (LF Q). }
  set (YA := fun i r j => if j <? n then at_ (cY (wcon w' i)) r j else at_ (cA (wcon w' i)) r (j - n)).
  assert (ROWS : (forall i, In i (of_type (wcon w) EqualityConstraint (spC (ctl w))) ->
                    rows_hold false (nrConstr (wcon w' i)) (n + m * N) (YA i) (vget (cz (wcon w' i))) X) /\
                 (forall i, In i (of_type (wcon w) InequalityConstraint (spC (ctl w))) ->
                    rows_hold true (nrConstr (wcon w' i)) (n + m * N) (YA i) (vget (cz (wcon w' i))) X) <->
                 (forall i d, In i (spC (ctl w)) -> ck (wcon w i) <> KCtrlB -> con_data_of h i = Some d ->
                    imposes (wps w' p) d X (ctrl_part n X))).
  { split.
    - intros [H1 H2] i d Hi NB Ed. apply (si_con_rows i d X CA Hi (NS i Hi) Ed NB).
      destruct (isIneq (wcon w i)) eqn:Qi.
      + apply H2. apply in_of_type. split; [exact Hi|]. unfold has_type, constraintType. rewrite Qi. destruct (ck (wcon w i)); reflexivity || congruence.
      + apply H1. apply in_of_type. split; [exact Hi|]. unfold has_type, constraintType. rewrite Qi.
        destruct (ck (wcon w i)) eqn:Q; try reflexivity; [rewrite IQ in Qi by assumption; discriminate|congruence].
    - intro H. split; intros i Hi; apply in_of_type in Hi as [Hi T]; destruct (TY i Hi) as [d Ed];
        unfold has_type, constraintType in T.
      + assert (NB : ck (wcon w i) <> KCtrlB) by (intro Q; rewrite Q in T; discriminate).
        assert (Qi : isIneq (wcon w i) = false) by (destruct (ck (wcon w i)), (isIneq (wcon w i)); congruence).
        pose proof (proj2 (si_con_rows i d X CA Hi (NS i Hi) Ed NB) (H i d Hi NB Ed)) as G. rewrite Qi in G. exact G.
      + assert (NB : ck (wcon w i) <> KCtrlB) by (intro Q; rewrite Q in T; discriminate).
        assert (Qi : isIneq (wcon w i) = true) by (destruct (ck (wcon w i)) eqn:Q; try (apply IQ; assumption); destruct (isIneq (wcon w i)); congruence).
        pose proof (proj2 (si_con_rows i d X CA Hi (NS i Hi) Ed NB) (H i d Hi NB Ed)) as G. rewrite Qi in G. exact G. }
  assert (BND : within_bounds (vsize (qlb (m_qp (ctl w')))) (vget (qlb (m_qp (ctl w')))) (vget (qub (m_qp (ctl w')))) X <->
    within_bounds n (vget (isx0lb s)) (vget (isx0ub s)) X /\
    within_bounds (m * N) (fun i => vget (qlb (m_qp (ctl w'))) (n + i)) (fun i => vget (qub (m_qp (ctl w'))) (n + i)) (ctrl_part n X)).
  { unfold within_bounds. rewrite Z1. split.
    - intro H. split; intros i Hi; [|apply (H (n + i)); lia]. destruct (BX i Hi) as [<- <-]. apply H. lia.
    - intros [H1 H2] i Hi. destruct (Nat.lt_ge_cases i n) as [Lt|Ge]; [destruct (BX i Lt) as [-> ->]; apply H1; exact Lt|].
      specialize (H2 (i - n) ltac:(lia)). unfold ctrl_part in H2. replace (n + (i - n)) with i in H2 by lia. exact H2. }
  assert (CB : within_bounds (m * N) (fun i => vget (qlb (m_qp (ctl w'))) (n + i)) (fun i => vget (qub (m_qp (ctl w'))) (n + i)) (ctrl_part n X) <->
    (forall i d, In i (spC (ctl w)) -> ck (wcon w i) = KCtrlB -> con_data_of h i = Some d ->
                    imposes (wps w' p) d X (ctrl_part n X)) /\ (spB (ctl w) = [] -> representable (m * N) (ctrl_part n X))).
  { assert (INB : forall i, In i (spB (ctl w)) <-> In i (spC (ctl w)) /\ ck (wcon w i) = KCtrlB).
    { intro i. rewrite (ri_b _ RI), in_of_type. unfold has_type, constraintType.
      destruct (ck (wcon w i)); destruct (isIneq (wcon w i)); intuition congruence. }
    pose proof (pi_b _ _ P) as LB. destruct (spB (ctl w)) as [|i0 [|i1 t]] eqn:Es; [| |cbn in LB; lia].
    - destruct St as [St|St]; [congruence|]. pose proof (free_tail_inv h w FP RE St) as FT.
      assert (FT' : forall i, i < m * N -> vget (qlb (m_qp (ctl w'))) (n + i) = no_lower /\ vget (qub (m_qp (ctl w'))) (n + i) = no_upper).
      { intros i Hi. destruct (B0 eq_refl (n + i) ltac:(lia)) as [-> ->]. destruct (FT (n + i) ltac:(right; lia)) as [F1 F2]. split; [apply F1|apply F2]; lia. }
      unfold representable, within_bounds. split.
      + intro H. split; [intros i d Hi Q; exfalso; apply (proj2 (INB i)); auto|]. intros _ i Hi. specialize (H i Hi). destruct (FT' i Hi) as [F1 F2]. rewrite F1, F2 in H. exact H.
      + intros [_ H] i Hi. destruct (FT' i Hi) as [-> ->]. apply H; [reflexivity|exact Hi].
    - destruct (proj1 (INB i0) (or_introl eq_refl)) as [Hi Q]. destruct (sv_con n m N SF h w p e b w' FP RE HO Ep So i0 CA Hi (NS i0 Hi)) as [d0 [Ed0 [G1 [G2 [G3 [G4 G5]]]]]].
      assert (NF : nrConstr (wcon w' i0) = m * N).
      { rewrite G5. destruct G3 as [Sh _]. unfold c_shape in Sh. rewrite Q in Sh. destruct Sh as [_ [-> _]]. reflexivity. }
      specialize (B1 i0 eq_refl). rewrite NF in B1.
      assert (WB : within_bounds (m * N) (fun i => vget (qlb (m_qp (ctl w'))) (n + i)) (fun i => vget (qub (m_qp (ctl w'))) (n + i)) (ctrl_part n X) <->
                   within_bounds (fullUDim (wps w' p)) (vget (clb (wcon w' i0))) (vget (cub (wcon w' i0))) (ctrl_part n X)).
      { unfold within_bounds. rewrite D2. split; intros H i Hlt; specialize (H i Hlt); destruct (B1 i Hlt) as [E1 E2]; rewrite E1, E2 in *; exact H. }
      rewrite WB, (inited_bounds_mean D _ _ _ X (ctrl_part n X) R SD G3 G2 Q G4), (imposes_alike _ _ d0 _ _ G1 (proj1 (sv_valid n m N SF h w p e b w' FP RE HO Ep So i0 d0 CA Hi (NS i0 Hi) Ed0))). split.
      + intro H. split; [|discriminate]. intros i d Hi' Q' Ed. assert (In i [i0]) as [<-|[]] by (apply INB; auto). congruence.
      + intros [H _]. eapply H; eassumption. }
  rewrite <- and_assoc. etransitivity; [apply and_iff_compat_r; exact ROWS|]. rewrite BND, CB. unfold all_imposed_from. split.
  - intros [H1 [HX [H2 H3]]]. split; [exact HX|]. split; [|exact H3]. intros i d Hi Ed. destruct (ck (wcon w i)) eqn:Q; try (apply (H1 i d Hi); [congruence|exact Ed]). eapply H2; eassumption.
  - intros [HX [H1 H3]]. split; [|split; [exact HX|split]]; [intros; eapply H1; eassumption|intros; eapply H1; eassumption|exact H3].
Qed.

Lemma si_cost i x U : callable world0 h -> fresh_steps (wps w' p) h (spCost (ctl w)) -> In i (spCost (ctl w)) ->
  exists d, cost_data_of h i = Some d /\
    objective (m * N) (at_ (kQ (wcost w' i))) (fun j => sum n (fun a => at_ (kE (wcost w' i)) a j * x a) + vget (kf (wcost w' i)) j)%Qc U
    = (cost_value (wps w' p) d (weights_of h i) x U
       - cost_value (wps w' p) d (weights_of h i) x (fun _ => 0))%Qc.
Proof using S SF.
  intros CA FS Hi. pose proof (sd_pinv _ _ _ _ _ _ _ _ _ S) as P. destruct (sd_ps _ _ _ _ _ _ _ _ _ S) as [R [SD [_ [_ [_ [_ [_ [_ Ek]]]]]]]].
  destruct (sv_cost_data n m N SF h w p e b w' FP RE HO Ep So i CA Hi) as [d [Ed [G1 [G2 [_ [Fi Wr]]]]]]. exists d. split; [exact Ed|].
  pose proof (pi_rcost _ _ P i Hi) as KI.
  assert (D1 : xDim (wps w' p) = n) by apply SD. assert (D2 : fullUDim (wps w' p) = m * N) by apply SD.
  assert (PS : k_acc (wcost w i) = per_step (wps w' p) d).
  { destruct KI as [_ En]. rewrite <- (per_step_alike _ _ _ G1). unfold k_acc, per_step, k_given, k_entry in *.
    assert (X1 : xDim (wps w' p) = xDim D) by apply SD. assert (X2 : uDim (wps w' p) = uDim D) by apply SD. rewrite X1, X2.
    destruct (kk (wcost w i)); try reflexivity; rewrite En, negb_involutive; reflexivity. }
  assert (EX : k_exact (wps w' p) (wcost w' i)).
  { apply (sd_exact _ _ _ _ _ _ _ _ _ S i Hi). rewrite PS. intro A. destruct (FS i d Hi Ed A) as [A1 A2]. split; [|exact A2]. eapply zero_inv_holds; eassumption. }
  destruct (sd_kshape _ _ _ _ _ _ _ _ _ S i Hi) as [[S1 [S2 [S3 [S4 [S5 S6]]]]] [ShP EnP]].
  rewrite <- D2, <- D1, (k_value_x _ R); [|apply ShP|exact EnP|exact EX].
  rewrite !given_value. rewrite (k_given_eq (wcost w i) (wcost w' i)), S6 by assumption.
  rewrite !(cost_value_alike _ _ d _ (weights_of h i) _ _ G1 Fi Wr G2). reflexivity.
Qed.
Lemma si_value X : callable world0 h -> fresh_steps (wps w' p) h (spCost (ctl w)) ->
  let U := ctrl_part n X in
  qp_value (m_qp (ctl w')) X =
    (total_cost_from (wps w' p) h (spCost (ctl w)) X U + regularization (m * N) U
     + (objective n (at_ (qQ (m_qp (ctl w')))) (vget (qc (m_qp (ctl w')))) X - total_cost_from (wps w' p) h (spCost (ctl w)) X (fun _ => 0)))%Qc.
Proof using S SF Is.
  intros CA FS. cbv zeta.
  destruct si_dims as [D1 [D2 [[_ [_ [Y0 _]]] [_ [_ [Z0 _]]]]]].
  assert (A := C28_assembly_initial_state h w p s e b w' RE Ep Is So). cbv zeta in A. rewrite D1, D2 in A. specialize (A Y0).
  destruct A as [_ [_ [_ [_ [_ [_ [HQ [HE [_ [_ [HF _]]]]]]]]]]].
  unfold qp_value. rewrite Z0, (objective_blocks n (m * N) _ _ X _ HE).
  rewrite (objective_sum _ (spCost (ctl w)) q1em6 _ _ (fun k => at_ (kQ (wcost w' k)))
     (fun k j => (sum n (fun i => at_ (kE (wcost w' k)) i j * X i) + vget (kf (wcost w' k)) j)%Qc) (ctrl_part n X)).
  - unfold total_cost_from, regularization.
    rewrite (lsum_ext (spCost (ctl w)) (fun k => objective _ _ _ (ctrl_part n X))
      (fun i => match cost_data_of h i with Some d => cost_value (wps w' p) d (weights_of h i) X (ctrl_part n X) | None => 0%Qc end
              - match cost_data_of h i with Some d => cost_value (wps w' p) d (weights_of h i) X (fun _ => 0%Qc) | None => 0%Qc end)%Qc).
    + rewrite lsum_sub. ring.
    + intros i Hi. destruct (si_cost i X (ctrl_part n X) CA FS Hi) as [d [-> E]]. exact E.
  - intros i j Hi Hj. apply HQ; assumption.
  - intros j Hj. rewrite HF by exact Hj. rewrite lsum_add. f_equal.
    rewrite <- (sum_ext n (fun i => lsum (spCost (ctl w)) (fun k => at_ (kE (wcost w' k)) i j * X i)%Qc)).
    + symmetry. apply lsum_sum.
    + intros i Hi. rewrite <- (Qcmult_comm (X i)), <- lsum_scal. apply lsum_ext. intros. ring.
Qed.
End IS.
