(** Properties_InitialState.v -- C38, C39, C41, C49: controllers that also choose the initial state. *)
From Verif Require Import Base Eigen Spec Preview SpecApi PreviewProofs AutoSpan AutoSpanProofs Constraints ConstraintProofs
  SpecConstraints ConstraintMeaning Checkers Costs SpecCosts CostProofs CostMeaning Properties_Costs Controller Registry SpecController Assembly
  Results Properties_Assembly Properties_Results SpecProtocol Protocol Properties_Protocol SpecEndToEnd SpanData Properties_Registry
  EndToEnd EndToEndQP EndToEndRows EndToEndMain Convex ExactSolver Properties_EndToEnd Determined StateExt InitialState.

(** ** The cost matrix of the controls *)
Lemma is_cost_block n m N h w p s e b w' : solved n m N h w p e b w' -> m_is (ctl w) = Some s -> nonneg_weights h ->
  let k := m * N in
  let Q := fun i j => at_ (qQ (m_qp (ctl w'))) (n + i) (n + j) in
  symmetric k Q /\ (forall U, (q1em6 * sum k (fun i => U i * U i) <= quad k Q U)%Qc).
Proof.
  intros S Is NW. cbv zeta. pose proof S as [SF FP RE HO Ep So]. pose proof (sd_pinv _ _ _ _ _ _ _ _ _ S) as P.
  destruct (si_dims n m N SF h w p s e b w' S Is) as [D1 [D2 [[_ [_ [Y0 _]]] _]]].
  assert (A := C28_assembly_initial_state h w p s e b w' RE Ep Is So). cbv zeta in A. rewrite D1, D2 in A. specialize (A Y0).
  destruct A as [_ [_ [_ [_ [_ [_ [HQ _]]]]]]].
  destruct (solve_objs _ _ _ _ So) as [p' [ps [wc [wk [Ep' [Eu [Ec [Ek [Hw [HC [HK _]]]]]]]]]]]. rewrite Ep in Ep'. injection Ep' as <-.
  destruct (pi_m _ _ P p Ep) as [Np _].
  destruct (ensure_live (dps n m N) _ (pi_ps _ _ P p Np)) as [ps' [Eu' [Lp [_ Up]]]]. rewrite Eu in Eu'. injection Eu' as <-.
  destruct (pos_inv_holds n m N SF h w FP RE NW) as [KW AP].
  pose proof (update_costs_psd n m N SF ps Lp Up _ _ _ Ek (pi_rcost _ _ P) (fun i _ => KW i) AP) as PSD. rewrite <- HK in PSD.
  assert (KZ : fullUDim (dps n m N) = m * N) by reflexivity. rewrite KZ in PSD. split.
  - intros i j Hi Hj. rewrite !HQ, (Nat.eqb_sym j i) by assumption. f_equal. apply lsum_ext. intros r Hr. apply (proj1 (PSD r Hr)); assumption.
  - intro U. unfold quad. rewrite (quad_sum (m * N) (spCost (ctl w)) q1em6 _ (fun r => at_ (kQ (wcost w' r))) U) by (intros; apply HQ; assumption).
    assert (G : (0 <= lsum (spCost (ctl w)) (fun r => sum (m * N) (fun i => U i * apply (m * N) (at_ (kQ (wcost w' r))) U i)))%Qc).
    { apply lsum_nonneg. intros r Hr. apply (proj2 (PSD r Hr)). }
    qc_lra.
Qed.
Lemma above_pos_def k Q : (forall U, (q1em6 * sum k (fun i => U i * U i) <= quad k Q U)%Qc) -> pos_def k Q.
Proof.
  intros GE x [i [Hi Hx]]. specialize (GE x).
  assert (Pos : (0 < sum k (fun i => x i * x i))%Qc) by (apply (sum_pos k _ i); [intros; apply qc_sq_nonneg|exact Hi|apply qc_sq_pos; exact Hx]).
  assert (E6 : (0 < q1em6)%Qc) by reflexivity. pose proof (qc_mul_pos _ _ E6 Pos) as M. unfold quad in GE. qc_lra.
Qed.

(** ** C38: bounds that pin the initial state *)
Definition cat (n : nat) (x V : nat -> Qc) : nat -> Qc := fun i => if i <? n then x i else V (i - n).
Lemma cat_l n x V i : i < n -> cat n x V i = x i.
Proof. intro H. unfold cat. rewrite (proj2 (Nat.ltb_lt _ _) H). reflexivity. Qed.
Lemma cat_r n x V j : ctrl_part n (cat n x V) j = V j.
Proof. unfold ctrl_part, cat. rewrite (proj2 (Nat.ltb_ge _ _)) by lia. f_equal. lia. Qed.

Lemma pinned_bounds s n x X : pinned s n x -> (within_bounds n (vget (isx0lb s)) (vget (isx0ub s)) X <-> forall i, i < n -> X i = x i).
Proof.
  intro P. split; intros H i Hi.
  - specialize (H i Hi). destruct (P i Hi) as [P1 P2]. rewrite P1, P2 in H. cbn in H. destruct H as [H1 H2]. apply Qcle_antisym; assumption.
  - destruct (P i Hi) as [-> ->]. rewrite (H i Hi). cbn. split; apply Qcle_refl.
Qed.
Lemma representable_ext k U V : (forall i, i < k -> U i = V i) -> representable k U -> representable k V.
Proof. intros E H i Hi. rewrite <- (E i Hi). apply H. exact Hi. Qed.

Theorem C38_pinned_initial_state : forall n m N h1 w1 p1 e1 b1 v1 h2 w2 p2 e2 b2 v2 s,
  sizes_fit n m N ->
  (* an LMPC and an InitialStateLMPC *)
  follows_protocol n m N world0 h1 -> callable world0 h1 -> honest world0 h1 -> reached h1 w1 ->
  m_ps (ctl w1) = Some p1 -> m_is (ctl w1) = None -> solve e1 w1 = Some (b1, v1) ->
  follows_protocol n m N world0 h2 -> callable world0 h2 -> honest world0 h2 -> reached h2 w2 ->
  m_ps (ctl w2) = Some p2 -> m_is (ctl w2) = Some s -> solve e2 w2 = Some (b2, v2) ->
  (* of the same system, with the same constraints and costs, the second with x0 bounds equal to the initial state *)
  same_system (wps w1 p1) (wps w2 p2) -> same_registered h1 w1 h2 w2 -> pinned s n (vget (x0 (wps w1 p1))) ->
  (* per-step costs were not already solved with; no bounds of a removed constraint are left *)
  fresh_steps (wps w1 p1) h1 (spCost (ctl w1)) -> fresh_steps (wps w2 p2) h2 (spCost (ctl w2)) ->
  (spB (ctl w1) <> [] \/ stale world0 false h1 = false /\ stale world0 false h2 = false) ->
  let q1 := m_qp (ctl v1) in
  let q2 := m_qp (ctl v2) in
  (forall X, feasible q2 X <-> (forall i, i < n -> X i = vget (x0 (wps w1 p1)) i) /\ feasible q1 (ctrl_part n X)) /\
  (exists d, forall X, feasible q2 X -> qp_value q2 X = (qp_value q1 (ctrl_part n X) + d)%Qc).
Proof.
  intros n m N h1 w1 p1 e1 b1 v1 h2 w2 p2 e2 b2 v2 s SF FP1 CA1 HO1 RE1 Ep1 NI So1 FP2 CA2 HO2 RE2 Ep2 Is So2 SY SR PIN FS1 FS2 ST. cbv zeta.
  pose (S1 := Build_solved n m N h1 w1 p1 e1 b1 v1 SF FP1 RE1 HO1 Ep1 So1).
  pose (S2 := Build_solved n m N h2 w2 p2 e2 b2 v2 SF FP2 RE2 HO2 Ep2 So2).
  destruct SR as [LC [SC [LK SK]]].
  destruct (sd_ps _ _ _ _ _ _ _ _ _ S1) as [R1 [D1 [D1' [X1 [A1 [B1 [d1 _]]]]]]].
  destruct (sd_ps _ _ _ _ _ _ _ _ _ S2) as [R2 [D2 [D2' [X2 [A2 [B2 [d2 _]]]]]]].
  assert (PA0 : ps_alike (wps v1 p1) (wps v2 p2)).
  { split; [eapply same_dims_trans; [exact D1|apply same_dims_sym; exact D2]|]. destruct SY as [Q1 [Q2 [Q3 Q4]]]. repeat split; congruence. }
  assert (NSc1 : forall i, In i (spC (ctl w1)) -> even_bounds h1 i) by (intros i Hi; apply (SC i Hi)).
  assert (NSc2 : forall i, In i (spC (ctl w2)) -> even_bounds h2 i) by (intros i Hi; rewrite <- LC in Hi; apply (SC i Hi)).
  assert (AC : forall i, In i (spC (ctl w1)) -> c_alike (wcon w1 i) (wcon w2 i)).
  { intros i Hi. pose proof Hi as Hi2. rewrite LC in Hi2. destruct (SC i Hi) as [E [N1 N2]].
    destruct (sv_con n m N SF h1 w1 p1 e1 b1 v1 FP1 RE1 HO1 Ep1 So1 i CA1 Hi N1) as [da [Ea [Ga [Fa [Ia _]]]]].
    destruct (sv_con n m N SF h2 w2 p2 e2 b2 v2 FP2 RE2 HO2 Ep2 So2 i CA2 Hi2 N2) as [db [Eb [Gb [Fb [Ib _]]]]].
    rewrite Ea, Eb in E. apply (given_alike (dps n m N)); try assumption.
    eapply con_alike_trans; [exact Ga|]. eapply con_alike_trans; [exact E|]. apply con_alike_sym. exact Gb. }
  assert (LB : spB (ctl w1) = spB (ctl w2)).
  { pose proof (pi_reg _ _ (sd_pinv _ _ _ _ _ _ _ _ _ S1)) as I1. pose proof (pi_reg _ _ (sd_pinv _ _ _ _ _ _ _ _ _ S2)) as I2.
    rewrite (ri_b _ I1), (ri_b _ I2), <- LC. apply of_type_alike. intros i Hi. apply alike_type, AC, Hi. }
  assert (Dn : xDim (wps v2 p2) = n) by apply D2. assert (Dk : fullUDim (wps v2 p2) = m * N) by apply D2. assert (Dk1 : fullUDim (wps v1 p1) = m * N) by apply D1.
  assert (Fq1 : forall V, feasible (m_qp (ctl v1)) V <-> _) by (intro V; exact (sv_feasible n m N SF h1 w1 p1 e1 b1 v1 FP1 RE1 HO1 Ep1 NI So1 V CA1 ltac:(tauto) NSc1)).
  assert (ST2 : spB (ctl w2) <> [] \/ stale world0 false h2 = false) by (rewrite <- LB; tauto).
  assert (Fq2 : forall X, feasible (m_qp (ctl v2)) X <-> _) by (intro X; exact (si_feasible n m N SF h2 w2 p2 s e2 b2 v2 S2 Is X CA2 ST2 NSc2)).
  pose proof (fresh_steps_dims _ _ _ _ D1' FS1) as FS1'. pose proof (fresh_steps_dims _ _ _ _ D2' FS2) as FS2'.
  assert (Vq1 : forall V, qp_value (m_qp (ctl v1)) V = _) by (intro V; exact (sv_value n m N SF h1 w1 p1 e1 b1 v1 FP1 RE1 HO1 Ep1 NI So1 V CA1 FS1')).
  assert (Vq2 : forall X, qp_value (m_qp (ctl v2)) X = _) by (intro X; exact (si_value n m N SF h2 w2 p2 s e2 b2 v2 S2 Is X CA2 FS2')).
  cbv zeta in Vq2. set (x := vget (x0 (wps w1 p1))) in *. assert (Hx : vget (x0 (wps v1 p1)) = x) by (unfold x; rewrite X1; reflexivity).
  assert (IM : forall X, (forall i, i < n -> X i = x i) ->
     (all_imposed_from (wps v2 p2) h2 (spC (ctl w2)) X (ctrl_part n X) <-> all_imposed (wps v1 p1) h1 (spC (ctl w1)) (ctrl_part n X))).
  { intros X HX. unfold all_imposed_from, all_imposed. rewrite Hx, <- LC.
    assert (G : forall d, imposes (wps v2 p2) d X (ctrl_part n X) <-> imposes (wps v1 p1) d x (ctrl_part n X)).
    { intro d. rewrite (imposes_alike_ps _ _ d x (ctrl_part n X) PA0). apply imposes_ext; [exact R2|rewrite Dn; exact HX|reflexivity]. }
    assert (G' : forall i d1 d2, In i (spC (ctl w1)) -> con_data_of h1 i = Some d1 -> con_data_of h2 i = Some d2 ->
      (imposes (wps v1 p1) d1 x (ctrl_part n X) <-> imposes (wps v1 p1) d2 x (ctrl_part n X))).
    { intros i da db Hi Ea Eb. destruct (SC i Hi) as [E [N1 N2]]. rewrite Ea, Eb in E. apply imposes_alike; [exact E|].
      apply (sv_valid n m N SF h1 w1 p1 e1 b1 v1 FP1 RE1 HO1 Ep1 So1 i da CA1 Hi N1 Ea). }
    split; intros H i d Hi Ed; destruct (SC i Hi) as [E _]; unfold same_con_data in E; rewrite Ed in E.
    - destruct (con_data_of h2 i) as [d'|] eqn:Ed'; [|contradiction]. apply (G' i d d' Hi Ed Ed'), G, (H i d' Hi Ed').
    - destruct (con_data_of h1 i) as [d'|] eqn:Ed'; [|contradiction]. apply G, (G' i d' d Hi Ed' Ed), (H i d' Hi Ed'). }
  split.
  - intro X. rewrite Fq2, Fq1, (pinned_bounds s n x X PIN), <- LB, Dk1. split; [intros [HX [H1 H2]]|intros [HX [H1 H2]]]; (split; [exact HX|]); split; try exact H2; apply (IM X HX); exact H1.
  - set (Q2 := at_ (qQ (m_qp (ctl v2)))) in *. set (c2 := vget (qc (m_qp (ctl v2)))) in *.
    exists (objective n Q2 c2 x)%Qc. intros X FX. apply Fq2 in FX. destruct FX as [BX _]. pose proof (proj1 (pinned_bounds s n x X PIN) BX) as BX0. clear BX. rename BX0 into BX.
    assert (TC : forall V, total_cost_from (wps v2 p2) h2 (spCost (ctl w2)) X V = total_cost (wps v1 p1) h1 (spCost (ctl w1)) V).
    { intro V. unfold total_cost_from, total_cost. rewrite Hx, <- LK. apply lsum_ext. intros i Hi. destruct (SK i Hi) as [E W]. unfold same_cost_data in E.
      destruct (cost_data_of h1 i) as [d|] eqn:Ed; [|contradiction]. destruct (cost_data_of h2 i) as [d'|] eqn:Ed'; [|contradiction].
      rewrite (cost_value_ext_x (wps v2 p2) X x V V R2) by (first [rewrite Dn; exact BX|reflexivity]).
      rewrite <- (cost_value_alike_ps _ _ d' _ x V PA0). symmetry.
      destruct (sv_cost_data n m N SF h1 w1 p1 e1 b1 v1 FP1 RE1 HO1 Ep1 So1 i CA1 Hi) as [da [Ea [G1 [G2 [_ [Fi Wr]]]]]]. rewrite Ed in Ea. injection Ea as <-.
      apply cost_value_alike; [exact E|apply (fits_alike _ _ _ G1 Fi)| |exact W].
      rewrite <- (proj1 G2), Wr. apply cost_rows_alike. exact G1. }
    rewrite Vq1, Vq2, !TC, Dk1. assert (OB : objective n Q2 c2 X = objective n Q2 c2 x).
    { unfold objective. f_equal; [f_equal|]; apply sum_ext; intros i Hi; [|rewrite BX by exact Hi; reflexivity].
      rewrite BX by exact Hi. f_equal. apply apply_ext_v. exact BX. }
    rewrite OB. ring.
Qed.
Print Assumptions C38_pinned_initial_state.

Lemma feasible_ext q U V : (forall i, U i = V i) -> feasible q U -> feasible q V.
Proof.
  intros E [H1 [H2 H3]].
  assert (A : forall n M i, apply n M U i = apply n M V i) by (intros; apply apply_ext_v; intros; apply E).
  split; [|split]; intros i Hi; rewrite <- ?A, <- ?E; [apply H1|apply H2|apply H3]; exact Hi.
Qed.
Lemma qp_value_ext q U V : (forall i, U i = V i) -> qp_value q U = qp_value q V.
Proof.
  intro E. unfold qp_value, objective. f_equal; [f_equal|]; apply sum_ext; intros i Hi; rewrite E; [|reflexivity].
  f_equal. apply apply_ext_v. intros; apply E.
Qed.
Lemma trajectory_same p q x y U V X Y : ready p -> ps_alike p q ->
  (forall i, i < xDim p -> vget x i = vget y i) -> (forall j, j < fullUDim p -> vget U j = vget V j) ->
  is_trajectory p x U X -> is_trajectory q y V Y ->
  vsize X = vsize Y /\ forall r, r < vsize X -> vget X r = vget Y r.
Proof.
  intros R PA Hx HU [X1 [_ X2]] [Y1 [_ Y2]]. pose proof PA as [[D1 [D2 [D3 [D4 [D5 D6]]]]] _].
  split; [congruence|]. intros r Hr. rewrite X1, (rd_fx _ R), (rd_nx _ R) in Hr. assert (Px : 0 < xDim p) by (destruct (xDim p); lia).
  assert (K : r / xDim p <= nrUStep p) by (assert (r / xDim p < nrUStep p + 1) by (apply Nat.div_lt_upper_bound; lia); lia).
  pose proof (Nat.mod_upper_bound r (xDim p) ltac:(lia)) as M. pose proof (Nat.div_mod r (xDim p) ltac:(lia)) as E.
  replace r with (r / xDim p * xDim p + r mod xDim p) by lia. rewrite (X2 _ _ K M). rewrite D1 in *. rewrite Y2 by lia.
  rewrite <- (alike_state p q _ _ _ PA). apply state_of_ext; try assumption; rewrite D1; assumption.
Qed.

(** the two controllers compute the same control and the same trajectory *)
Theorem C38_same_control : forall n m N h1 w1 p1 e1 v1 h2 w2 p2 e2 v2 s,
  sizes_fit n m N ->
  follows_protocol n m N world0 h1 -> callable world0 h1 -> honest world0 h1 -> nonneg_weights h1 -> reached h1 w1 ->
  m_ps (ctl w1) = Some p1 -> m_is (ctl w1) = None -> exact_solver e1 -> solve e1 w1 = Some (true, v1) ->
  follows_protocol n m N world0 h2 -> callable world0 h2 -> honest world0 h2 -> reached h2 w2 ->
  m_ps (ctl w2) = Some p2 -> m_is (ctl w2) = Some s -> exact_solver e2 -> solve e2 w2 = Some (true, v2) ->
  same_system (wps w1 p1) (wps w2 p2) -> same_registered h1 w1 h2 w2 -> pinned s n (vget (x0 (wps w1 p1))) ->
  fresh_steps (wps w1 p1) h1 (spCost (ctl w1)) -> fresh_steps (wps w2 p2) h2 (spCost (ctl w2)) ->
  (spB (ctl w1) <> [] \/ stale world0 false h1 = false /\ stale world0 false h2 = false) ->
  veq (m_ctrl (ctl v1)) (m_ctrl (ctl v2)) /\ veq (m_traj (ctl v1)) (m_traj (ctl v2)) /\
  exists x, initialState v2 = Some x /\ veq x (x0 (wps w1 p1)).
Proof.
  intros n m N h1 w1 p1 e1 v1 h2 w2 p2 e2 v2 s SF FP1 CA1 HO1 NW1 RE1 Ep1 NI EX1 So1 FP2 CA2 HO2 RE2 Ep2 Is EX2 So2 SY SR PIN FS1 FS2 ST.
  destruct (C38_pinned_initial_state n m N h1 w1 p1 e1 true v1 h2 w2 p2 e2 true v2 s SF FP1 CA1 HO1 RE1 Ep1 NI So1 FP2 CA2 HO2 RE2 Ep2 Is So2 SY SR PIN FS1 FS2 ST) as [CF [dd CV]]. cbv zeta in CF, CV.
  pose (S1 := Build_solved n m N h1 w1 p1 e1 true v1 SF FP1 RE1 HO1 Ep1 So1).
  pose (S2 := Build_solved n m N h2 w2 p2 e2 true v2 SF FP2 RE2 HO2 Ep2 So2).
  destruct (sd_ps _ _ _ _ _ _ _ _ _ S1) as [R1 [D1 [D1' [X1 [A1 [B1 [d1 _]]]]]]].
  destruct (sd_ps _ _ _ _ _ _ _ _ _ S2) as [R2 [D2 [D2' [X2 [A2 [B2 [d2 _]]]]]]].
  assert (PA : ps_alike (wps v1 p1) (wps v2 p2)).
  { split; [eapply same_dims_trans; [exact D1|apply same_dims_sym; exact D2]|]. destruct SY as [Q1 [Q2 [Q3 Q4]]]. repeat split; congruence. }
  destruct (pi_m _ _ (sd_pinv _ _ _ _ _ _ _ _ _ S1) p1 Ep1) as [Np1 _]. destruct (pi_m _ _ (sd_pinv _ _ _ _ _ _ _ _ _ S2) p2 Ep2) as [Np2 _].
  destruct (C35_success_publishes h1 w1 p1 e1 v1 RE1 HO1 Ep1 NI Np1 So1) as [Es1 [Tr1 _]]. cbv zeta in Es1, Tr1.
  destruct (EX1 _ _ _ _ _ Es1 (sv_called n m N SF h1 w1 p1 e1 true v1 FP1 RE1 HO1 Ep1 NI So1)) as [Sz1 [Fe1 Op1]].
  destruct (si_dims n m N SF h2 w2 p2 s e2 true v2 S2 Is) as [Dn [Dk [_ [_ [_ [Z3 _]]]]]].
  assert (Dnw : xDim (wps w2 p2) = n) by (rewrite <- Dn; symmetry; apply D2'). assert (Dkw : fullUDim (wps w2 p2) = m * N) by (rewrite <- Dk; symmetry; apply D2').
  assert (Vs : vsize (m_sol (ctl v2)) = xDim (wps w2 p2) + fullUDim (wps w2 p2)).
  { destruct (solve_qp _ _ _ _ So2) as [u [Eb [Q1 [Q2 [Q3 [_ [_ [_ [_ [_ Q5]]]]]]]]]]. rewrite <- Q1, <- Q2, <- Q3 in Q5.
    destruct (EX2 _ _ _ _ _ Q5 (si_called n m N SF h2 w2 p2 s e2 true v2 S2 Is)) as [Sz _]. rewrite Sz, Z3. lia. }
  destruct (C35_success_publishes_initial_state h2 w2 p2 s e2 v2 RE2 HO2 Ep2 Is Np2 So2 Vs) as [Es2 [Ct2 [[x [Ex [Xz [Xs Tr2]]]] _]]]. cbv zeta in Es2, Ct2, Ex, Xz, Xs, Tr2.
  destruct (EX2 _ _ _ _ _ Es2 (si_called n m N SF h2 w2 p2 s e2 true v2 S2 Is)) as [Sz2 [Fe2 Op2]]. rewrite Dn in Xz, Xs. rewrite Dk, Dn in Ct2.
  set (sol := vget (m_sol (ctl v2))) in *. set (U1 := vget (m_ctrl (ctl v1))) in *. set (y := vget (x0 (wps w1 p1))) in *.
  pose proof (proj1 (CF sol) Fe2) as [HX FU2].
  assert (FC : feasible (m_qp (ctl v2)) (cat n y U1)).
  { apply CF. split; [intros i Hi; apply cat_l; exact Hi|]. eapply feasible_ext; [|exact Fe1]. intro i. symmetry. apply cat_r. }
  assert (Le : (qp_value (m_qp (ctl v1)) (ctrl_part n sol) <= qp_value (m_qp (ctl v1)) U1)%Qc).
  { specialize (Op2 _ FC). rewrite (CV _ FC), (CV _ Fe2) in Op2. rewrite (qp_value_ext _ (ctrl_part n (cat n y U1)) U1) in Op2 by (intro; apply cat_r). qc_lra. }
  destruct (C27_cost_matrix n m N h1 w1 p1 e1 true v1 SF FP1 NW1 RE1 Ep1 NI So1) as [_ [_ [Kz [_ [_ PD]]]]]. cbv zeta in Kz, PD.
  assert (Dk1 : fullUDim (wps v1 p1) = m * N) by apply D1.
  assert (UE : forall j, j < m * N -> U1 j = vget (m_ctrl (ctl v2)) j).
  { intros j Hj. rewrite Ct2 by exact Hj. apply (minimizer_unique (m_qp (ctl v1)) U1 (ctrl_part n sol) PD Fe1 FU2 Op1 Le). rewrite Kz, Dk1. exact Hj. }
  destruct (Tr1) as [_ [Uz1 _]]. destruct (Tr2) as [_ [Uz2 _]].
  assert (Vx : veq x (x0 (wps w1 p1))).
  { split; [rewrite Xz, <- X1, (rd_x0 _ R1); symmetry; apply D1|]. intros i Hi. rewrite Xz in Hi. rewrite Xs by exact Hi. apply HX. exact Hi. }
  split; [split; [rewrite Uz1, Uz2; apply PA|intros j Hj; apply UE; rewrite Uz1, Dk1 in Hj; exact Hj]|]. split.
  - eapply (trajectory_same (wps v1 p1) (wps v2 p2)); [exact R1|exact PA| | |exact Tr1|exact Tr2].
    + intros i Hi. rewrite X1. symmetry. apply Vx. rewrite Xz. replace (xDim (wps v1 p1)) with n in Hi by (symmetry; apply D1). exact Hi.
    + intros j Hj. apply UE. rewrite Dk1 in Hj. exact Hj.
  - exists x. auto.
Qed.
Print Assumptions C38_same_control.

(** the controller of C36_example, and the same with the initial state among the variables (its bounds are x0 by default) *)
Definition exisb (b : con_data) (c : ctor) (r : list op) (k : Z) : list op :=
  [OPs 0 (PSystem (mlit [[1]]%Z) (mlit [[1]]%Z) (vlit [0]%Z) (vlit [0]%Z) k); OConstruct j0 c qempty] ++ r ++
  [ONewCon (DTraj (mlit [[1]]%Z) (elit [fin 1]) true); ONewCon b;
   ONewCost (DTrajC (mlit [[1]]%Z) (vlit [4]%Z)); ONewCost (DTargetC (mlit [[1]]%Z) (vlit [2]%Z));
   OWeight 1 (qz 3);
   OAddCon j0 0; OAddCon j0 1; OAddCost j0 0; OAddCost j0 1].
Definition exis : ctor -> list op -> Z -> list op := exisb (DCtrlB (elit [fin (-3)]) (elit [fin 3])).
(** the bounds that autoSpan makes in [ex36] *)
Definition ex38 : list op := exisb (DCtrlB (elit [fin (-3); fin (-3)]) (elit [fin 3; fin 3])) (CISps 0) [] 2.
(** the inverse of the 2 x 2 cost matrix of the controls *)
Definition det38 : Qc := ((qz 5 + q1em6) * (qz 4 + q1em6) - qz 16)%Qc.
Definition inv38 : mx := Mx 2 2 (fun i j => match i, j with
  | 0, 0 => (qz 4 + q1em6) / det38 | 1, 1 => (qz 5 + q1em6) / det38 | _, _ => qz (-4) / det38 end)%Qc.
Definition z38 (i : nat) : Qc := (at_ inv38 i 0 * qz 5 + at_ inv38 i 1 * qz 4)%Qc.
Definition env_inv (cs : list cert) (P : mx) : senv :=
  SEnv j0 (fun M => if Nat.eqb (rows M) (rows P) && Nat.eqb (cols M) (cols P) then P else M) (s_qp (env_certs cs)) (qz 0) (qz 1) (qz 3) (qz 4).
Lemma env_inv_exact cs P : exact_solver (env_inv cs P).
Proof. exact (env_certs_exact cs). Qed.
Lemma env_inv_sane cs P : sane (env_inv cs P).
Proof.
  split; [|intros k a b q r H; exact (env_certs_size cs _ _ _ _ _ H)].
  intros M H. cbn. destruct (Nat.eqb_spec (rows M) (rows P)), (Nat.eqb_spec (cols M) (cols P)); cbn; lia.
Qed.
Definition sos38 (z : nat -> Qc) (R : Qc) : list (Qc * list Qc) :=
  [(qz 4, [(z 0%nat + z 1%nat)%Qc; qz 1; qz 1]); ((qz 1 + q1em6)%Qc, [z 0%nat; qz 1]); (q1em6, [z 1%nat; qz 0; qz 1]); (R, [qz 1])].
Definition cert38 : cert :=
  Cert [qz 0; qz 1; qz 0] [] [qz 0; (qz 3 - q1em6)%Qc; qz 6] [(q1em6 - qz 14)%Qc] (sos38 z38 (qz 0)).
Definition env38 := env_inv [cert38] inv38.
Lemma ex38_pre : sizes_fit 1 1 2 /\ follows_protocol 1 1 2 world0 ex38 /\ callable world0 ex38 /\ honest world0 ex38 /\ nonneg_weights ex38 /\
  (forall i, even_bounds ex38 i) /\ stale world0 false ex38 = false /\ added_since_solve ex38 0.
Proof.
  split; [repeat split; lia|]. split.
  { apply followsb_ok; [|vm_compute; reflexivity]. intros e H. cbn in H. repeat (destruct H as [H|H]; [try discriminate H|]); contradiction. }
  split; [apply callableb_ok; vm_compute; reflexivity|]. split; [apply honestb_ok; vm_compute; reflexivity|]. split.
  { split.
    - intros i x H. cbn in H. repeat (destruct H as [H|H]; [try discriminate H|]); try contradiction. injection H as _ <-. apply qleb_ok. reflexivity.
    - intros i v H. cbn in H. repeat (destruct H as [H|H]; [try discriminate H|]); contradiction. }
  split; [intros [|[|i]] lo up H; cbn in H; try discriminate H; destruct i; discriminate H|].
  split; [vm_compute; reflexivity|].
  exists (firstn 9 ex38), j0, [OAddCost j0 1]. split; [reflexivity|]. intros e [H|[]]. discriminate H.
Qed.
(** with [ex36] (C36_example), these are the hypotheses of C38_same_control; the controls are computed *)
Example C38_example : exact_solver env38 /\
  match run world0 ex36, run world0 ex38 with
  | Some w1, Some w2 =>
    match m_ps (ctl w1), m_is (ctl w1), m_ps (ctl w2), m_is (ctl w2), solve (env_certs [cert36]) w1, solve env38 w2 with
    | Some p1, None, Some p2, Some s, Some (true, v1), Some (true, v2) =>
        Nat.eqb p1 p2 && Nat.eqb (length (spC (ctl w1))) (length (spC (ctl w2))) && Nat.eqb (length (spCost (ctl w1))) (length (spCost (ctl w2))) &&
        tightb (vget (isx0lb s) 0) (vget (x0 (wps w1 p1)) 0) && tightb (vget (isx0ub s) 0) (vget (x0 (wps w1 p1)) 0) &&
        negb (per_step (wps w1 p1) (DTargetC (mlit [[1]]%Z) (vlit [2]%Z))) &&
        forallb (fun xy => qeqb (fst xy) (snd xy)) (combine (vdump (m_ctrl (ctl v2))) (map qz [1; 0]%Z)) &&
        forallb (fun xy => qeqb (fst xy) (snd xy)) (combine (vdump (m_ctrl (ctl v1))) (map qz [1; 0]%Z))
    | _, _, _, _, _, _ => false
    end
  | _, _ => false end = true.
Proof. split; [apply env_inv_exact|]. vm_compute. reflexivity. Qed.
Lemma ex38_same_registered : forall w1 w2, reached ex36 w1 -> reached ex38 w2 -> same_registered ex36 w1 ex38 w2.
Proof.
  assert (C : match run world0 ex36, run world0 ex38 with
    | Some w1, Some w2 => match spC (ctl w1), spC (ctl w2), spCost (ctl w1), spCost (ctl w2) with [0; 1], [0; 1], [0; 1], [0; 1] => true | _, _, _, _ => false end
    | _, _ => false end = true) by (vm_compute; reflexivity).
  intros w1 w2 H1 H2. unfold reached in *. rewrite H1, H2 in C.
  destruct (spC (ctl w1)) as [|[|] [|[|[|]] [|]]] eqn:E1; try discriminate C. destruct (spC (ctl w2)) as [|[|] [|[|[|]] [|]]] eqn:E2; try discriminate C.
  destruct (spCost (ctl w1)) as [|[|] [|[|[|]] [|]]] eqn:E3; try discriminate C. destruct (spCost (ctl w2)) as [|[|] [|[|[|]] [|]]] eqn:E4; try discriminate C.
  unfold same_registered. rewrite E1, E2, E3, E4. split; [reflexivity|]. split.
  { intros i [<-|[<-|[]]]; (split; [|split; intros lo up H; discriminate H]); [apply con_alike_refl|].
    split; (split; [reflexivity|]); intros [|[|r]] Hr; cbn in Hr; try lia; reflexivity. }
  split; [reflexivity|]. intros i [<-|[<-|[]]]; (split; [apply cost_alike_refl|split; [reflexivity|]]); intros [|[|r]] Hr; cbn in Hr; try lia; reflexivity.
Qed.

(** ** C49: the published control is optimal from the published initial state *)
Lemma objective_ext k Q c U V : (forall i, i < k -> U i = V i) -> objective k Q c U = objective k Q c V.
Proof.
  intro E. unfold objective. f_equal; [f_equal|]; apply sum_ext; intros i Hi; rewrite E by exact Hi; [|reflexivity].
  f_equal. apply apply_ext_v. exact E.
Qed.
Theorem C49_optimal_from_initial_state : forall n m N h w p s e w',
  sizes_fit n m N -> follows_protocol n m N world0 h -> callable world0 h -> honest world0 h -> reached h w ->
  m_ps (ctl w) = Some p -> m_is (ctl w) = Some s ->
  (forall i, In i (spC (ctl w)) -> even_bounds h i) ->
  fresh_steps (wps w p) h (spCost (ctl w)) -> (spB (ctl w) <> [] \/ stale world0 false h = false) ->
  exact_solver e -> solve e w = Some (true, w') ->
  let ps := wps w' p in
  let k := fullUDim ps in
  let U := vget (m_ctrl (ctl w')) in
  exists x, initialState w' = Some x /\ vsize x = xDim ps /\
  let admissible := fun V => all_imposed_from ps h (spC (ctl w)) (vget x) V /\ (spB (ctl w) = [] -> representable k V) in
  let cost := fun V => (total_cost_from ps h (spCost (ctl w)) (vget x) V + regularization k V)%Qc in
  (* the system is the user's *)
  psA ps = psA (wps w p) /\ psB ps = psB (wps w p) /\ psd ps = psd (wps w p) /\ same_dims ps (wps w p) /\
  (* the initial state is within its bounds, trajectory() starts there *)
  within_bounds (xDim ps) (vget (isx0lb s)) (vget (isx0ub s)) (vget x) /\
  is_trajectory ps x (m_ctrl (ctl w')) (m_traj (ctl w')) /\
  (* control() is admissible from there and optimal *)
  admissible U /\ (forall V, admissible V -> (cost U <= cost V)%Qc) /\
  (* and the only one *)
  (nonneg_weights h -> forall V, admissible V -> (cost V <= cost U)%Qc -> forall i, i < k -> V i = U i).
Proof.
  intros n m N h w p s e w' SF FP CA HO RE Ep Is NSc FS ST EX So. cbv zeta.
  pose (S := Build_solved n m N h w p e true w' SF FP RE HO Ep So).
  destruct (sd_ps _ _ _ _ _ _ _ _ _ S) as [R [D [D' _]]].
  destruct (pi_m _ _ (sd_pinv _ _ _ _ _ _ _ _ _ S) p Ep) as [Np _].
  destruct (si_dims n m N SF h w p s e true w' S Is) as [Dn [Dk [_ [_ [_ [Z3 _]]]]]].
  assert (Dnw : xDim (wps w p) = n) by (rewrite <- Dn; symmetry; apply D'). assert (Dkw : fullUDim (wps w p) = m * N) by (rewrite <- Dk; symmetry; apply D').
  assert (Vs : vsize (m_sol (ctl w')) = xDim (wps w p) + fullUDim (wps w p)).
  { destruct (solve_qp _ _ _ _ So) as [u [Eb [Q1 [Q2 [Q3 [_ [_ [_ [_ [_ Q5]]]]]]]]]]. rewrite <- Q1, <- Q2, <- Q3 in Q5.
    destruct (EX _ _ _ _ _ Q5 (si_called n m N SF h w p s e true w' S Is)) as [Sz _]. rewrite Sz, Z3. lia. }
  destruct (C35_success_publishes_initial_state h w p s e w' RE HO Ep Is Np So Vs) as [Es [Ct [[x [Ex [Xz [Xs Tr]]]] [_ [EA [EB [Ed SD]]]]]]].
  cbv zeta in Es, Ct, Ex, Xz, Xs, Tr, EA, EB, Ed, SD.
  destruct (EX _ _ _ _ _ Es (si_called n m N SF h w p s e true w' S Is)) as [Sz [Fe Op]]. exists x. split; [exact Ex|]. split; [exact Xz|].
  do 4 (split; [assumption|]).
  pose proof (fresh_steps_dims _ _ _ _ SD FS) as FS'.
  assert (Fq : forall X, feasible (m_qp (ctl w')) X <-> _) by (intro X; exact (si_feasible n m N SF h w p s e true w' S Is X CA ST NSc)).
  assert (Vq : forall X, qp_value (m_qp (ctl w')) X = _) by (intro X; exact (si_value n m N SF h w p s e true w' S Is X CA FS')). cbv zeta in Vq.
  rewrite Dk, Dn in Ct. rewrite Dn in Xs, Xz. rewrite Dk.
  set (sol := vget (m_sol (ctl w'))) in *. set (U := vget (m_ctrl (ctl w'))) in *.
  (* admissible controls from x are the feasible points above x *)
  assert (EI : forall y V, (forall i, i < n -> y i = vget x i) ->
     (all_imposed_from (wps w' p) h (spC (ctl w)) y V <-> all_imposed_from (wps w' p) h (spC (ctl w)) (vget x) V)).
  { intros y V Hy. unfold all_imposed_from. split; intros H i d Hi Hd; specialize (H i d Hi Hd); revert H; apply imposes_ext; auto; intros j Hj; rewrite Dn in Hj; rewrite Hy by exact Hj; reflexivity. }
  assert (EU : forall V V', (forall i, i < m * N -> V i = V' i) ->
     (all_imposed_from (wps w' p) h (spC (ctl w)) (vget x) V <-> all_imposed_from (wps w' p) h (spC (ctl w)) (vget x) V')).
  { intros V V' Hy. unfold all_imposed_from. split; intros H i d Hi Hd; specialize (H i d Hi Hd); revert H; apply imposes_ext; auto; intros j Hj; rewrite Dk in Hj; rewrite Hy by exact Hj; reflexivity. }
  assert (Us : forall j, j < m * N -> ctrl_part n sol j = U j) by (intros j Hj; symmetry; apply Ct; exact Hj).
  destruct (proj1 (Fq sol) Fe) as [BX [AX RX]].
  assert (BXx : within_bounds n (vget (isx0lb s)) (vget (isx0ub s)) (vget x)) by (intros i Hi; rewrite Xs by exact Hi; apply BX; exact Hi).
  assert (AU : all_imposed_from (wps w' p) h (spC (ctl w)) (vget x) U).
  { apply (EU (ctrl_part n sol)); [exact Us|]. apply (EI sol); [intros; symmetry; auto|exact AX]. }
  split; [rewrite Dn; exact BXx|]. split; [exact Tr|].
  split; [split; [exact AU|intro Q; eapply representable_ext; [exact Us|exact (RX Q)]]|].
  assert (FC : forall V, (all_imposed_from (wps w' p) h (spC (ctl w)) (vget x) V /\ (spB (ctl w) = [] -> representable (m * N) V)) -> feasible (m_qp (ctl w')) (cat n (vget x) V)).
  { intros V [A1 A2]. apply Fq. split; [intros i Hi; rewrite cat_l by exact Hi; apply BXx; exact Hi|]. split.
    - apply (EI (cat n (vget x) V)); [intros; apply cat_l; assumption|]. apply (EU V); [intros; symmetry; apply cat_r|exact A1].
    - intro Q. eapply representable_ext; [intros; symmetry; apply cat_r|exact (A2 Q)]. }
  assert (TC : forall y V V', (forall i, i < n -> y i = vget x i) -> (forall i, i < m * N -> V i = V' i) ->
     total_cost_from (wps w' p) h (spCost (ctl w)) y V = total_cost_from (wps w' p) h (spCost (ctl w)) (vget x) V').
  { intros y V V' Hy HV. unfold total_cost_from. apply lsum_ext. intros i Hi. destruct (cost_data_of h i) as [d|]; [|reflexivity].
    apply cost_value_ext_x; [exact R|rewrite Dn; exact Hy|rewrite Dk; exact HV]. }
  assert (RG : forall V V', (forall i, i < m * N -> V i = V' i) -> regularization (m * N) V = regularization (m * N) V').
  { intros V V' HV. unfold regularization. do 2 f_equal. apply sum_ext. intros i Hi. rewrite HV by exact Hi. reflexivity. }
  assert (VD : forall y V, (forall i, i < n -> y i = vget x i) -> (forall i, i < m * N -> ctrl_part n y i = V i) ->
     qp_value (m_qp (ctl w')) y = (total_cost_from (wps w' p) h (spCost (ctl w)) (vget x) V + regularization (m * N) V
       + (objective n (at_ (qQ (m_qp (ctl w')))) (vget (qc (m_qp (ctl w')))) (vget x) - total_cost_from (wps w' p) h (spCost (ctl w)) (vget x) (fun _ => 0)))%Qc).
  { intros y V Hy HV. rewrite Vq. rewrite (TC y _ V Hy HV), (TC y _ (fun _ => 0%Qc) Hy (fun i _ => eq_refl)), (RG _ V HV), (objective_ext n _ _ y (vget x) Hy). reflexivity. }
  assert (Vsol := VD sol U (fun i Hi => eq_sym (Xs i Hi)) Us).
  assert (Vcat : forall V, qp_value (m_qp (ctl w')) (cat n (vget x) V) = _) by (intro V; exact (VD (cat n (vget x) V) V (fun i Hi => cat_l n _ V i Hi) (fun i _ => cat_r n _ V i))).
  split.
  - intros V AV. specialize (Op _ (FC V AV)). rewrite Vsol, Vcat in Op. qc_lra.
  - intros NW V AV Le i Hi. destruct (is_cost_block n m N h w p s e true w' S Is NW) as [_ GE]. cbv zeta in GE.
    pose proof (above_pos_def _ _ GE) as PD. destruct (Qc_eq_dec (V i) (U i)) as [E|Ne]; [exact E|exfalso].
    pose proof (FC V AV) as FV. pose proof (feasible_mid _ _ _ Fe FV) as FM. specialize (Op _ FM).
    assert (OM := objective_mid (vsize (qc (m_qp (ctl w')))) (at_ (qQ (m_qp (ctl w')))) (vget (qc (m_qp (ctl w')))) sol (cat n (vget x) V)).
    fold (qp_value (m_qp (ctl w')) sol) (qp_value (m_qp (ctl w')) (cat n (vget x) V)) (qp_value (m_qp (ctl w')) (mid sol (cat n (vget x) V))) in OM.
    set (dX := (fun i => sol i - cat n (vget x) V i)%Qc) in *.
    assert (QD : quad (vsize (qc (m_qp (ctl w')))) (at_ (qQ (m_qp (ctl w')))) dX
               = quad (m * N) (fun i j => at_ (qQ (m_qp (ctl w'))) (n + i) (n + j)) (ctrl_part n dX)).
    { rewrite Z3, quad_blocks.
      assert (H0 : forall i, i < n -> dX i = 0%Qc) by (intros a Ha; unfold dX; rewrite cat_l, Xs by exact Ha; ring).
      assert (E1 : quad n (at_ (qQ (m_qp (ctl w')))) dX = 0%Qc) by (unfold quad; apply sum_zero; intros a Ha; rewrite H0 by exact Ha; ring).
      rewrite E1, (sum_zero (m * N)); [ring|]. intros j Hj. rewrite sum_zero; [ring|]. intros a Ha. rewrite H0 by exact Ha. ring. }
    rewrite QD in OM.
    assert (PP : (0 < quad (m * N) (fun i j => at_ (qQ (m_qp (ctl w'))) (n + i) (n + j)) (ctrl_part n dX))%Qc).
    { apply PD. exists i. split; [exact Hi|]. unfold dX, ctrl_part. fold (ctrl_part n sol i) (ctrl_part n (cat n (vget x) V) i). rewrite cat_r, Us by exact Hi.
      intro E. apply Ne. replace (V i) with (U i - (U i - V i))%Qc by ring. rewrite E. ring. }
    assert (Le' : (qp_value (m_qp (ctl w')) (cat n (vget x) V) <= qp_value (m_qp (ctl w')) sol)%Qc) by (rewrite Vsol, Vcat; qc_lra).
    set (a := qp_value (m_qp (ctl w')) sol) in *. set (b := qp_value (m_qp (ctl w')) (cat n (vget x) V)) in *. set (c := qp_value (m_qp (ctl w')) (mid sol (cat n (vget x) V))) in *.
    assert (H8 : (0 < half * (half * half))%Qc) by reflexivity. pose proof (qc_mul_pos _ _ H8 PP) as PP'.
    assert (HB : (half * (a + b) <= a)%Qc) by (apply half_le; [apply Qcle_refl|exact Le']).
    qc_lra.
Qed.
Print Assumptions C49_optimal_from_initial_state.

(** the same controller choosing its initial state in [-1, 1], with R = 1: it chooses -1, then 2 and 0 *)
Definition ex49 : list op := exis (CISps 0) [OResetX0Bounds (elit [fin (-1)]) (elit [fin 1]); OResetX0Cost (mlit [[1]]%Z) (vlit [0]%Z)] 2.
Definition cert49 : cert :=
  Cert [qz (-1); qz 2; qz 0] [] [qz 0; (qz 3 - qz 2 * q1em6)%Qc; qz 6]
       [(qz 2 * q1em6 - qz 18 + qz 5 * z38 0%nat + qz 4 * z38 1%nat)%Qc] (sos38 z38 (qz 1)).
Definition env49 := env_inv [cert49] inv38.
Example C49_example :
  sizes_fit 1 1 2 /\ follows_protocol 1 1 2 world0 ex49 /\ callable world0 ex49 /\ honest world0 ex49 /\ nonneg_weights ex49 /\
  exact_solver env49 /\
  (forall i, even_bounds ex49 i) /\ stale world0 false ex49 = false /\ added_since_solve ex49 0 /\
  match run world0 ex49 with
  | Some w => match m_ps (ctl w), m_is (ctl w), solve env49 w with
              | Some p, Some _, Some (true, w') =>
                  Nat.eqb (cnt 0 (spCost (ctl w))) 1 && negb (per_step (wps w p) (DTargetC (mlit [[1]]%Z) (vlit [2]%Z))) &&
                  match initialState w' with Some x => qeqb (vget x 0) (qz (-1)) | None => false end &&
                  forallb (fun xy => qeqb (fst xy) (snd xy)) (combine (vdump (m_traj (ctl w'))) (map qz [-1; 1; 1]%Z)) &&
                  forallb (fun xy => qeqb (fst xy) (snd xy)) (combine (vdump (m_ctrl (ctl w'))) (map qz [2; 0]%Z))
              | _, _, _ => false end
  | None => false end = true.
Proof.
  split; [repeat split; lia|]. split.
  { apply followsb_ok; [|vm_compute; reflexivity]. intros e H. cbn in H. repeat (destruct H as [H|H]; [try discriminate H|]); contradiction. }
  split; [apply callableb_ok; vm_compute; reflexivity|]. split; [apply honestb_ok; vm_compute; reflexivity|]. split.
  { split.
    - intros i x H. cbn in H. repeat (destruct H as [H|H]; [try discriminate H|]); try contradiction. injection H as _ <-. apply qleb_ok. reflexivity.
    - intros i v H. cbn in H. repeat (destruct H as [H|H]; [try discriminate H|]); contradiction. }
  split; [apply env_inv_exact|].
  split; [intros [|[|i]] lo up H; cbn in H; try discriminate H; destruct i; discriminate H|].
  split; [vm_compute; reflexivity|]. split; [|vm_compute; reflexivity].
  exists (firstn 11 ex49), j0, [OAddCost j0 1]. split; [reflexivity|]. intros e [H|[]]. discriminate H.
Qed.

(** ** C39: the cost matrix over initial state and control *)
Section Square.
Variables (n k : nat) (T : nat -> nat -> Qc) (R E P : nat -> nat -> Qc) (X : nat -> Qc).
Let Quu := fun i j => T (n + i)%nat (n + j)%nat.
Hypothesis SY : symmetric k Quu.
Hypothesis IV : inverse_of k Quu P.
Hypothesis HE : forall i j, i < n -> j < k -> T i (n + j)%nat = E i j /\ T (n + j)%nat i = E i j.
Hypothesis HT : forall i j, i < n -> j < n -> T i j = (R i j + sum k (fun a => sum k (fun l => E i l * P l a) * E j a))%Qc.
(** E' x, and the control that minimizes the quadratic part from x, up to its sign *)
Definition sq_v (x : nat -> Qc) (j : nat) : Qc := sum n (fun i => E i j * x i)%Qc.
Definition sq_z (x : nat -> Qc) (j : nat) : Qc := apply k P (sq_v x) j.
Lemma sq_Qz x i : i < k -> apply k Quu (sq_z x) i = sq_v x i.
Proof using IV.
  intro Hi. unfold sq_z, apply at 1.
  rewrite (sum_ext k _ (fun l => sum k (fun a => Quu i l * P l a * sq_v x a)%Qc)) by (intros; unfold apply; rewrite <- sum_scal_l; apply sum_ext; intros; ring).
  rewrite sum_swap. rewrite (sum_ext k _ (fun a => if Nat.eqb a i then sq_v x a else 0%Qc)).
  - apply sum_delta. exact Hi.
  - intros a Ha. rewrite sum_scal_r, IV by assumption. rewrite (Nat.eqb_sym i a). destruct (Nat.eqb a i); ring.
Qed.
Lemma P_symmetric i j : i < k -> j < k -> P i j = P j i.
Proof using SY IV.
  intros Hi Hj.
  assert (A : sum k (fun l => P l i * sum k (fun a => Quu l a * P a j))%Qc = P j i).
  { rewrite (sum_ext k _ (fun l => if Nat.eqb l j then P l i else 0%Qc)); [apply (sum_delta k j (fun l => P l i)); exact Hj|].
    intros l Hl. rewrite IV by assumption. destruct (Nat.eqb l j); ring. }
  rewrite <- A.
  rewrite (sum_ext k _ (fun l => sum k (fun a => P l i * Quu l a * P a j)%Qc)) by (intros; rewrite <- sum_scal_l; apply sum_ext; intros; ring).
  rewrite sum_swap. rewrite (sum_ext k _ (fun a => if Nat.eqb a i then P a j else 0%Qc)); [symmetry; apply (sum_delta k i (fun a => P a j)); exact Hi|].
  intros a Ha. rewrite sum_scal_r. rewrite (sum_ext k _ (fun l => Quu a l * P l i)%Qc) by (intros l Hl; rewrite (SY l a Hl Ha); ring).
  rewrite IV by assumption. destruct (Nat.eqb a i); ring.
Qed.
Lemma complete_square : quad (n + k) T X = (quad n R X + quad k Quu (fun j => ctrl_part n X j + sq_z X j))%Qc.
Proof using SY IV HE HT.
  rewrite quad_blocks. set (U := ctrl_part n X). set (v := sq_v X). set (z := sq_z X).
  assert (E1 : quad n T X = (quad n R X + sum k (fun l => v l * z l))%Qc).
  { unfold quad.
    assert (Q : forall i, i < n -> apply n T X i = (apply n R X i + sum k (fun a => sum k (fun l => E i l * P l a) * v a))%Qc).
    { intros i Hi. unfold apply at 1. rewrite (sum_ext n _ (fun j => R i j * X j + sum k (fun a => sum k (fun l => E i l * P l a) * (E j a * X j)))%Qc).
      - rewrite sum_add. f_equal. rewrite sum_swap. apply sum_ext. intros a Ha. rewrite sum_scal_l. reflexivity.
      - intros j Hj. rewrite HT by assumption. rewrite Qcmult_plus_distr_l. f_equal. rewrite <- sum_scal_r. apply sum_ext. intros; ring. }
    rewrite (sum_ext n _ (fun i => X i * apply n R X i + X i * sum k (fun a => sum k (fun l => E i l * P l a) * v a))%Qc) by (intros; rewrite Q by assumption; ring).
    rewrite sum_add. f_equal.
    rewrite (sum_ext n _ (fun i => sum k (fun l => X i * E i l * z l)%Qc)).
    - rewrite sum_swap. apply sum_ext. intros l Hl. rewrite sum_scal_r. f_equal. unfold v, sq_v. apply sum_ext. intros; ring.
    - intros i Hi. rewrite <- sum_scal_l. rewrite (sum_ext k _ (fun a => sum k (fun l => X i * E i l * (P l a * v a))%Qc)).
      + rewrite sum_swap. apply sum_ext. intros l Hl. rewrite sum_scal_l. reflexivity.
      + intros a Ha. rewrite <- sum_scal_r, <- sum_scal_l. apply sum_ext. intros; ring. }
  assert (E2 : sum k (fun j => sum n (fun i => (T i (n + j)%nat + T (n + j)%nat i) * X i) * U j)%Qc = (sum k (fun j => v j * U j) + sum k (fun j => v j * U j))%Qc).
  { rewrite <- sum_add. apply sum_ext. intros j Hj. rewrite <- Qcmult_plus_distr_l. f_equal. unfold v, sq_v. rewrite <- sum_add. apply sum_ext. intros i Hi.
    destruct (HE i j Hi Hj) as [-> ->]. ring. }
  assert (E3 : quad k Quu (fun j => U j + z j)%Qc = (quad k Quu U + sum k (fun j => v j * U j) + sum k (fun j => v j * U j) + sum k (fun j => v j * z j))%Qc).
  { unfold quad.
    assert (AZ : forall i, i < k -> apply k Quu (fun j => U j + z j)%Qc i = (apply k Quu U i + v i)%Qc).
    { intros i Hi. unfold v. rewrite <- (sq_Qz X i Hi). unfold apply. rewrite <- sum_add. apply sum_ext. intros; unfold z; ring. }
    assert (ZU : sum k (fun i => z i * apply k Quu U i)%Qc = sum k (fun j => v j * U j)%Qc).
    { rewrite (sum_ext k (fun j => v j * U j)%Qc (fun j => sum k (fun i => Quu j i * z i * U j)%Qc)) by (intros j Hj; unfold v; rewrite <- (sq_Qz X j Hj); unfold apply; rewrite <- sum_scal_r; reflexivity).
      rewrite sum_swap. apply sum_ext. intros i Hi. unfold apply. rewrite <- sum_scal_l. apply sum_ext. intros j Hj. rewrite (SY j i Hj Hi). ring. }
    rewrite (sum_ext k _ (fun i => U i * apply k Quu U i + v i * U i + z i * apply k Quu U i + v i * z i)%Qc) by (intros; rewrite AZ by assumption; ring).
    rewrite !sum_add, ZU. ring. }
  fold Quu U. rewrite E1, E2, E3. ring.
Qed.
Lemma top_symmetric : symmetric n R -> symmetric (n + k) T.
Proof using SY IV HE HT.
  intros SR i j Hi Hj. destruct (Nat.lt_ge_cases i n) as [Li|Gi], (Nat.lt_ge_cases j n) as [Lj|Gj].
  - rewrite !HT by assumption. rewrite (SR i j Li Lj). f_equal.
    rewrite (sum_ext k _ (fun a => sum k (fun l => E i l * P l a * E j a)%Qc)) by (intros; rewrite <- sum_scal_r; reflexivity).
    rewrite sum_swap. apply sum_ext. intros l Hl. rewrite <- sum_scal_r. apply sum_ext. intros a Ha. rewrite (P_symmetric l a Hl Ha). ring.
  - replace j with (n + (j - n)) by lia. destruct (HE i (j - n) Li ltac:(lia)) as [-> ->]. reflexivity.
  - replace i with (n + (i - n)) by lia. destruct (HE j (i - n) Lj ltac:(lia)) as [-> ->]. reflexivity.
  - replace i with (n + (i - n)) by lia. replace j with (n + (j - n)) by lia. apply SY; lia.
Qed.
End Square.

Lemma is_square n m N h w p s e b w' : solved n m N h w p e b w' -> m_is (ctl w) = Some s -> nonneg_weights h ->
  let q := m_qp (ctl w') in
  let k := m * N in
  let Quu := fun i j => at_ (qQ q) (n + i) (n + j) in
  right_inverse e k Quu ->
  rows (qQ q) = n + k /\ cols (qQ q) = n + k /\ vsize (qc q) = n + k /\ symmetric k Quu /\ pos_def k Quu /\
  exists E P, inverse_of k Quu P /\
    (forall i j, i < n -> j < k -> at_ (qQ q) i (n + j) = E i j /\ at_ (qQ q) (n + j) i = E i j) /\
    (forall i j, i < n -> j < n -> at_ (qQ q) i j = (at_ (isR s) i j + sum k (fun a => sum k (fun l => E i l * P l a) * E j a))%Qc).
Proof.
  intros S Is NW. cbv zeta. intro RI. pose proof S as [SF FP RE HO Ep So].
  destruct (si_dims n m N SF h w p s e b w' S Is) as [D1 [D2 [[_ [_ [Y0 _]]] _]]].
  assert (A := C28_assembly_initial_state h w p s e b w' RE Ep Is So). cbv zeta in A. rewrite D1, D2 in A. specialize (A Y0).
  destruct A as [_ [_ [_ [R1 [R2 [R3 [HQ [HE [[Quu [U1 [U2 [U3 [_ [_ HT]]]]]] _]]]]]]]]].
  destruct (is_cost_block n m N h w p s e b w' S Is NW) as [SY GE].
  do 3 (split; [assumption|]). split; [exact SY|]. split; [apply above_pos_def; exact GE|].
  exists (fun i j => lsum (spCost (ctl w)) (fun r => at_ (kE (wcost w' r)) i j)), (at_ (s_inv e Quu)). split; [|split; [exact HE|exact HT]].
  apply RI; [exact U1|exact U2|]. intros i j Hi Hj. rewrite U3, HQ by assumption. reflexivity.
Qed.

(** the matrix is symmetric positive definite when R is, positive semidefinite when R is, and then positive in the controls *)
Theorem C39_positive_definite_partial : forall n m N h w p s e b w',
  sizes_fit n m N -> follows_protocol n m N world0 h -> honest world0 h -> nonneg_weights h -> reached h w ->
  m_ps (ctl w) = Some p -> m_is (ctl w) = Some s -> solve e w = Some (b, w') ->
  let q := m_qp (ctl w') in
  let k := vsize (qc q) in
  (* Eigen's inverse is exact on the cost matrix of the controls *)
  right_inverse e (m * N) (fun i j => at_ (qQ q) (n + i) (n + j)) ->
  rows (qQ q) = k /\ cols (qQ q) = k /\ k = n + m * N /\
  (symmetric n (at_ (isR s)) -> symmetric k (at_ (qQ q))) /\
  (pos_semidef n (at_ (isR s)) -> pos_semidef k (at_ (qQ q))) /\
  (pos_def n (at_ (isR s)) -> pos_def k (at_ (qQ q))).
Proof.
  intros n m N h w p s e b w' SF FP HO NW RE Ep Is So. cbv zeta. intro RI.
  pose (S := Build_solved n m N h w p e b w' SF FP RE HO Ep So).
  destruct (is_square n m N h w p s e b w' S Is NW RI) as [R1 [R2 [R3 [SY [PD [E [P [IV [HE HT]]]]]]]]]. rewrite R3.
  split; [exact R1|]. split; [exact R2|]. split; [reflexivity|].
  assert (CS : forall X, sum (n + m * N) (fun i => X i * apply (n + m * N) (at_ (qQ (m_qp (ctl w')))) X i)%Qc = _)
    by (intro X; exact (complete_square n (m * N) (at_ (qQ (m_qp (ctl w')))) (at_ (isR s)) E P X SY IV HE HT)).
  assert (PS : forall y, (0 <= quad (m * N) (fun i j => at_ (qQ (m_qp (ctl w'))) (n + i) (n + j)) y)%Qc).
  { intro y. destruct (is_cost_block n m N h w p s e b w' S Is NW) as [_ GE]. cbv zeta in GE. specialize (GE y).
    assert (G : (0 <= sum (m * N) (fun i => y i * y i))%Qc) by (apply sum_nonneg; intros; apply qc_sq_nonneg).
    assert (E6 : (0 <= q1em6)%Qc) by (apply qleb_ok; reflexivity). pose proof (qc_mul_nonneg _ _ E6 G). qc_lra. }
  split; [intro SR; apply (top_symmetric n (m * N) _ (at_ (isR s)) E P SY IV HE HT SR)|].
  split; intros HR X.
  - rewrite CS. specialize (HR X). specialize (PS (fun j => ctrl_part n X j + sq_z n (m * N) E P X j)%Qc). unfold quad at 1. qc_lra.
  - intros [i [Hi Hx]]. rewrite CS. set (y := fun j => (ctrl_part n X j + sq_z n (m * N) E P X j)%Qc).
    pose proof (PS y) as PY.
    assert (DEC : (exists a, a < n /\ X a <> 0%Qc) \/ (forall a, a < n -> X a = 0%Qc)).
    { clear. induction n as [|t [[a [Ha Hn]]|IH]]; [right; lia|left; exists a; split; [lia|exact Hn]|].
      destruct (Qc_eq_dec (X t) 0) as [E|E]; [right|left; exists t; auto]. intros a Ha. destruct (Nat.eq_dec a t) as [->|]; [exact E|apply IH; lia]. }
    destruct DEC as [DEC|Z].
    + specialize (HR X DEC). unfold quad at 1. qc_lra.
    + assert (QZ : quad n (at_ (isR s)) X = 0%Qc) by (unfold quad; apply sum_zero; intros a Ha; rewrite Z by exact Ha; ring). rewrite QZ.
      assert (PP : (0 < quad (m * N) (fun i j => at_ (qQ (m_qp (ctl w'))) (n + i) (n + j)) y)%Qc).
      { apply PD. destruct (Nat.lt_ge_cases i n) as [L|G]; [exfalso; apply Hx, Z, L|].
        exists (i - n). split; [lia|]. unfold y, ctrl_part. replace (n + (i - n)) with i by lia.
        assert (ZZ : sq_z n (m * N) E P X (i - n) = 0%Qc).
        { unfold sq_z, apply. apply sum_zero. intros a Ha. unfold sq_v. rewrite sum_zero; [ring|]. intros c Hc. rewrite Z by exact Hc. ring. }
        rewrite ZZ. intro Q. apply Hx. rewrite <- Q. ring. }
      qc_lra.
Qed.
Print Assumptions C39_positive_definite_partial.

(** ** The initial-state cost over a history *)
Lemma step_is w o w' : stepped w o w' ->
  match o with
  | OConstruct _ _ _ => (exists s, m_is (ctl w') = Some s /\ forall i j, at_ (isR s) i j = 0%Qc) \/ m_is (ctl w') = None
  | OResetX0Cost R r => m_is (ctl w') = match m_is (ctl w) with Some s => Some (IST R r (isx0lb s) (isx0ub s)) | None => None end
  | OResetX0Bounds lb ub => m_is (ctl w') = match m_is (ctl w) with Some s => Some (IST (isR s) (isr s) lb ub) | None => None end
  | _ => m_is (ctl w') = m_is (ctl w)
  end.
Proof.
  intro H. unfold stepped, step in H. destruct o; unfold with_con, with_cost in H;
    try (repeat match type of H with context [if ?b then _ else _] => destruct b end;
         destruct H as [H|[? H]]; try discriminate H; injection H; intros; subst; reflexivity).
  - destruct (ps_step (wps w p) o); cbn [out_map] in H; destruct H as [H|[? H]]; try discriminate H; injection H; intros; subst; reflexivity.
  - destruct (0 <? hcon w i); [destruct (c_autoSpan j (wcon w i)); cbn [out_map] in H|]; destruct H as [H|[? H]]; try discriminate H; injection H; intros; subst; reflexivity.
  - destruct (0 <? hcost w i); [destruct (k_autoSpan j (wcost w i)); cbn [out_map] in H|]; destruct H as [H|[? H]]; try discriminate H; injection H; intros; subst; reflexivity.
  - destruct (0 <? hcost w i); [destruct (k_weights (wcost w i) v); cbn [out_map] in H|]; destruct H as [H|[? H]]; try discriminate H; injection H; intros; subst; reflexivity.
  - unfold of_opt in H. destruct (construct j k r w) as [v|] eqn:E; destruct H as [H|[? H]]; try discriminate H. injection H as <-.
    destruct k; cbn [construct] in E.
    + injection E as <-. right; reflexivity.
    + apply initController_fields in E as [_ [-> _]]. right; reflexivity.
    + injection E as <-. left. eexists. split; [reflexivity|reflexivity].
    + apply initController_fields in E as [_ [-> _]]. left. eexists. split; [reflexivity|reflexivity].
  - unfold of_opt in H. destruct (initializeController j w p) as [v|] eqn:E; destruct H as [H|[? H]]; try discriminate H. injection H as <-. apply initController_fields in E as [_ [-> _]]. reflexivity.
  - destruct (0 <? hcost w i); [|destruct H as [H|[? H]]; try discriminate H; injection H; intros; subst; reflexivity].
    unfold addCost in H. destruct (m_ps (ctl w)); [|destruct H as [H|[? H]]; discriminate H].
    destruct (initializeCost _ _ _); destruct H as [H|[? H]]; try discriminate H; injection H; intros; subst; reflexivity.
  - destruct (0 <? hcon w i); [|destruct H as [H|[? H]]; try discriminate H; injection H; intros; subst; reflexivity].
    unfold addConstraint in H. destruct (m_ps (ctl w)); [|destruct H as [H|[? H]]; discriminate H].
    destruct (initializeConstraint _ _ _) as [c|e c|]; destruct H as [H|[? H]]; try discriminate H.
    + unfold of_opt in H. destruct (addConstraintByType _ _) as [v|] eqn:E; [|discriminate]. injection H as <-.
      unfold addConstraintByType in E. cbn in E. destruct (constraintType _); try (destruct (fits_int _); [|discriminate]); injection E as <-; reflexivity.
    + unfold of_opt in H. destruct (addConstraintByType _ _); discriminate H.
    + injection H; intros; subst; reflexivity.
  - destruct (0 <? hcost w i); destruct H as [H|[? H]]; try discriminate H; injection H; intros; subst; [|reflexivity].
    unfold removeCost. destruct (erase_first i (spCost (ctl w))); reflexivity.
  - destruct (0 <? hcon w i); [|destruct H as [H|[? H]]; try discriminate H; injection H; intros; subst; reflexivity].
    unfold of_opt in H. destruct (removeConstraint w i) as [v|] eqn:E; destruct H as [H|[? H]]; try discriminate H. injection H as <-.
    unfold removeConstraint in E. destruct (erase_first i (spC (ctl w))); [|injection E as <-; reflexivity].
    destruct (constraintType _); (destruct (erase_first i _); [|discriminate]); cbn [obind] in E; injection E as <-; reflexivity.
  - unfold of_opt in H. destruct (clearConstraints w) as [v|] eqn:E; destruct H as [H|[? H]]; try discriminate H. injection H as <-.
    unfold clearConstraints in E. destruct (m_ps (ctl w)); [|discriminate]. cbn [obind] in E.
    destruct (clearConstraintMatrices _ _) as [v0|] eqn:E0; [|discriminate]. cbn [obind] in E. injection E as <-. apply clearMatrices_free in E0. subst v0. reflexivity.
  - destruct (solve e w) as [[b v]|] eqn:E; destruct H as [H|[? H]]; try discriminate H. injection H as <-. apply (solve_keeps_is _ _ _ _ E).
  - destruct H as [H|[? H]]; try discriminate H. injection H as <-. unfold resetX0Cost. cbn. destruct (m_is (ctl w)) eqn:Ei; cbn; rewrite ?Ei; reflexivity.
  - destruct H as [H|[? H]]; try discriminate H. injection H as <-. unfold resetX0Bounds. cbn. destruct (m_is (ctl w)) eqn:Ei; cbn; rewrite ?Ei; reflexivity.
Qed.

(** the default R is 0: without resetInitialStateCost the cost matrix is never positive definite *)
Lemma default_R h w s : reached h w -> (forall R r, ~ In (OResetX0Cost R r) h) -> m_is (ctl w) = Some s -> forall i j, at_ (isR s) i j = 0%Qc.
Proof.
  revert w s. induction h as [|o h IH] using rev_ind; intros w s RE NR Is.
  - injection RE as <-. discriminate Is.
  - apply reached_snoc in RE as [v [RE St]]. assert (NR' : forall R r, ~ In (OResetX0Cost R r) h) by (intros R r H; apply (NR R r), in_or_app; left; exact H).
    specialize (IH v). pose proof (step_is _ _ _ St) as SI.
    destruct o; try (rewrite SI in Is; apply (IH _ RE NR' Is)).
    + destruct SI as [[s' [E Z]]|E]; rewrite E in Is; [injection Is as <-; exact Z|discriminate Is].
    + exfalso. apply (NR R r), in_or_app. right. left. reflexivity.
    + rewrite SI in Is. destruct (m_is (ctl v)) as [s'|] eqn:E; [|discriminate Is]. injection Is as <-. cbn. apply (IH s' RE NR' eq_refl).
Qed.
Theorem C39_default_refuted : forall n m N h w p s e b w',
  sizes_fit n m N -> follows_protocol n m N world0 h -> honest world0 h -> nonneg_weights h -> reached h w ->
  m_ps (ctl w) = Some p -> m_is (ctl w) = Some s -> solve e w = Some (b, w') -> 1 <= n ->
  (forall R r, ~ In (OResetX0Cost R r) h) ->
  let q := m_qp (ctl w') in
  right_inverse e (m * N) (fun i j => at_ (qQ q) (n + i) (n + j)) ->
  ~ pos_def (vsize (qc q)) (at_ (qQ q)).
Proof.
  intros n m N h w p s e b w' SF FP HO NW RE Ep Is So N1 NR. cbv zeta. intros RI PD.
  pose (S := Build_solved n m N h w p e b w' SF FP RE HO Ep So).
  destruct (is_square n m N h w p s e b w' S Is NW RI) as [_ [_ [R3 [SY [_ [E [P [IV [HE HT]]]]]]]]]. rewrite R3 in PD.
  set (x := fun _ : nat => 1%Qc). set (X := cat n x (fun j => - sq_z n (m * N) E P x j)%Qc).
  assert (HX : forall i, i < n -> X i = x i) by (intros; apply cat_l; assumption).
  assert (NZ : exists i, i < n + m * N /\ X i <> 0%Qc) by (exists 0; split; [lia|rewrite HX by lia; discriminate]).
  specialize (PD X NZ). fold (quad (n + m * N) (at_ (qQ (m_qp (ctl w')))) X) in PD.
  rewrite (complete_square n (m * N) _ (at_ (isR s)) E P X SY IV HE HT) in PD.
  assert (Z1 : quad n (at_ (isR s)) X = 0%Qc).
  { unfold quad. apply sum_zero. intros i Hi. unfold apply. rewrite (sum_zero n); [ring|]. intros j Hj. rewrite (default_R h w s RE NR Is). ring. }
  assert (ZX : forall j, sq_z n (m * N) E P X j = sq_z n (m * N) E P x j).
  { intro j. unfold sq_z. apply apply_ext_v. intros l Hl. unfold sq_v. apply sum_ext. intros i Hi. rewrite HX by exact Hi. reflexivity. }
  assert (Z2 : quad (m * N) (fun i j => at_ (qQ (m_qp (ctl w'))) (n + i) (n + j)) (fun j => ctrl_part n X j + sq_z n (m * N) E P X j)%Qc = 0%Qc).
  { unfold quad. apply sum_zero. intros j Hj. rewrite ZX. unfold X. rewrite cat_r. ring. }
  rewrite Z1, Z2 in PD. discriminate PD.
Qed.
Print Assumptions C39_default_refuted.
(** the inverse of [ex38], [ex49] is one (the cost matrix of the controls is the same) *)
Lemma right_inverse_env cs k Q P : rows P = k -> cols P = k -> inverse_of k Q (at_ P) -> right_inverse (env_inv cs P) k Q.
Proof. intros R C I M RM CM _. cbn. rewrite RM, CM, R, C, !Nat.eqb_refl. exact I. Qed.
Definition inverseb (k : nat) (Q P : nat -> nat -> Qc) : bool :=
  allb k (fun i => allb k (fun j => qeqb (sum k (fun l => Q i l * P l j)%Qc) (if Nat.eqb i j then 1%Qc else 0%Qc))).
Lemma inverseb_ok k Q P : inverseb k Q P = true -> inverse_of k Q P.
Proof. intros H i j Hi Hj. unfold inverseb in H. rewrite allb_ok in H. specialize (H i Hi). rewrite allb_ok in H. specialize (H j Hj). apply qeqb_ok in H. exact H. Qed.
(** hypotheses of C39_positive_definite_partial for [ex49], of C39_default_refuted for [ex38] *)
Example C39_example :
  (forall w, reached ex49 w -> match m_is (ctl w), solve env49 w with
     | Some s, Some (_, w') => right_inverse env49 (1 * 2) (fun i j => at_ (qQ (m_qp (ctl w'))) (1 + i) (1 + j)) /\ symmetric 1 (at_ (isR s)) /\ pos_def 1 (at_ (isR s))
     | _, _ => False end) /\
  (forall w, reached ex38 w -> match m_is (ctl w), solve env38 w with
     | Some s, Some (_, w') => right_inverse env38 (1 * 2) (fun i j => at_ (qQ (m_qp (ctl w'))) (1 + i) (1 + j))
     | _, _ => False end) /\ (forall R r, ~ In (OResetX0Cost R r) ex38).
Proof.
  assert (C49 : match run world0 ex49 with Some w => match m_is (ctl w), solve env49 w with Some s, Some (_, w') =>
      inverseb 2 (fun i j => at_ (qQ (m_qp (ctl w'))) (1 + i) (1 + j)) (at_ inv38) && qeqb (at_ (isR s) 0 0) (qz 1) | _, _ => false end | None => false end = true)
    by (vm_compute; reflexivity).
  assert (C38 : match run world0 ex38 with Some w => match m_is (ctl w), solve env38 w with Some s, Some (_, w') =>
      inverseb 2 (fun i j => at_ (qQ (m_qp (ctl w'))) (1 + i) (1 + j)) (at_ inv38) | _, _ => false end | None => false end = true)
    by (vm_compute; reflexivity).
  split; [|split].
  - intros w RE. unfold reached in RE. rewrite RE in C49. destruct (m_is (ctl w)) as [s|]; [|discriminate C49]. destruct (solve env49 w) as [[b w']|]; [|discriminate C49].
    apply andb_true_iff in C49 as [C1 C2]. apply qeqb_ok in C2. split; [apply right_inverse_env; [reflexivity..|apply inverseb_ok; exact C1]|].
    split; [intros i j Hi Hj; replace i with 0 by lia; replace j with 0 by lia; reflexivity|].
    intros x [i [Hi Hx]]. replace i with 0 in Hx by lia. cbn. unfold apply. cbn [sum]. rewrite C2.
    pose proof (qc_sq_pos _ Hx) as G. replace (0 + x 0%nat * (0 + qz 1 * x 0%nat))%Qc with (x 0%nat * x 0%nat)%Qc; [exact G|]. change (qz 1) with 1%Qc. ring.
  - intros w RE. unfold reached in RE. rewrite RE in C38. destruct (m_is (ctl w)) as [s|]; [|discriminate C38]. destruct (solve env38 w) as [[b w']|]; [|discriminate C38].
    apply right_inverse_env; [reflexivity..|apply inverseb_ok; exact C38].
  - intros R r H. cbn in H. repeat (destruct H as [H|H]; [try discriminate H|]); contradiction.
Qed.

(** ** C41: built empty, then initialized, then given a cost and bounds *)
Theorem C41_usable_after_resets_partial : forall n m N h w j r j' p R r0 lo up e,
  sizes_fit n m N -> follows_protocol n m N world0 h -> reached h w -> is_set w p ->
  rows R = n -> cols R = n -> vsize r0 = n -> vsize lo = n -> vsize up = n -> sane e ->
  exists w1 b w', run w [OConstruct j CIS r; OInitController j' p; OResetX0Cost R r0; OResetX0Bounds lo up] = Some w1 /\
    solve e w1 = Some (b, w').
Proof.
  intros n m N h w j r j' p R r0 lo up e SF FP RE St R1 R2 V1 V2 V3 Sn.
  destruct (protocol_run n m N SF h world0 (world0_pinv _) FP) as [w0 [E0 P]]. unfold reached in RE. rewrite RE in E0. injection E0 as <-.
  set (t := [OConstruct j CIS r; OInitController j' p; OResetX0Cost R r0; OResetX0Bounds lo up; OSolve e]).
  assert (F : follows_protocol n m N w t).
  { unfold t. cbn [follows_protocol step of_opt construct legal]. split; [exact I|]. split; [exact St|].
    destruct (initializeController j' _ p) as [v|] eqn:E; [|exact I]. apply initController_fields in E as [I1 [I2 _]]. cbn [ctl set_ctl m_is lmpc_default] in I2.
    cbn [of_opt follows_protocol legal]. split; [exact I|]. cbn [step follows_protocol]. split; [exact I|].
    cbn [step follows_protocol]. split; [|destruct (solve _ _) as [[? ?]|]; exact I].
    unfold resetX0Cost, resetX0Bounds. cbn [ctl set_ctl]. rewrite I2. cbn [ctl set_ctl m_is set_is isR isr m_ps has_system].
    split; [unfold has_system; cbn; rewrite I1; discriminate|]. split; [|exact Sn]. intros s Hs. injection Hs as <-. cbn. auto. }
  destruct (protocol_run n m N SF t w P F) as [w2 [E2 _]].
  change t with ([OConstruct j CIS r; OInitController j' p; OResetX0Cost R r0; OResetX0Bounds lo up] ++ [OSolve e]) in E2. rewrite run_app in E2.
  destruct (run w [OConstruct j CIS r; OInitController j' p; OResetX0Cost R r0; OResetX0Bounds lo up]) as [w1|]; [|discriminate E2].
  cbn [obind run step] in E2. destruct (solve e w1) as [[b v]|] eqn:Es; [|discriminate E2]. eauto.
Qed.
Print Assumptions C41_usable_after_resets_partial.
(** ... it is then the controller that InitialStateLMPC(ps, flag) builds, if these are its defaults *)
Theorem C41_same_controller_partial : forall w j j' r p,
  let n := xDim (wps w p) in
  run w [OConstruct j CIS r; OInitController j' p; OResetX0Cost (mzero n n) (vconst n 0%Qc);
         OResetX0Bounds (fin_vec (x0 (wps w p))) (fin_vec (x0 (wps w p)))]
  = run w [OConstruct j' (CISps p) r].
Proof.
  intros w j j' r p. cbv zeta. cbn [run step of_opt construct].
  unfold initializeController, clearConstraintMatrices. cbn [ctl set_ctl wps set_mps lmpc_default m_is optSize obind].
  destruct (fits_int (xDim (wps w p) + fullUDim (wps w p))); [|reflexivity]. cbn [obind of_opt]. reflexivity.
Qed.
Print Assumptions C41_same_controller_partial.
Example C41_usable_example : follows_protocol 2 1 3 world0 [OPs 0 (PSystem exA exB exd exx0 3)] /\
  match run world0 [OPs 0 (PSystem exA exB exd exx0 3)] with
  | Some w => (1 <=? nrUStep (wps w 0)) && match run w [OConstruct j0 CIS qempty; OInitController j0 0; OResetX0Cost (mident 2 2) (vconst 2 0%Qc); OResetX0Bounds (elit [fin 0; fin (-1)]) (elit [fin 1; PInf])] with
      | Some w1 => match solve env_ok w1 with Some (true, w') => Nat.eqb (vsize (m_sol (ctl w'))) 5 | _ => false end | None => false end
  | None => false end = true.
Proof.
  split; [apply followsb_ok; [intros e H; cbn in H; repeat (destruct H as [H|H]; [try discriminate H|]); contradiction|vm_compute; reflexivity]|vm_compute; reflexivity].
Qed.

(** ** C50: what the pair (initial state, control) minimizes *)
(** the costs the user asked for: registered costs, 1/2 x'Rx + r'x, and the regularization of the controls *)
Definition joint_cost (ps : psys) (h : list op) (l : list nat) (s : ist) (n k : nat) (x U : nat -> Qc) : Qc :=
  (total_cost_from ps h l x U + regularization k U + objective n (at_ (isR s)) (vget (isr s)) x)%Qc.
(** copra minimizes it up to a function of the initial state: the cost without control is left out, and the block that
    makes the matrix positive is added *)
Theorem C50_joint_minimum_partial : forall n m N h w p s e w',
  sizes_fit n m N -> follows_protocol n m N world0 h -> callable world0 h -> honest world0 h -> reached h w ->
  m_ps (ctl w) = Some p -> m_is (ctl w) = Some s ->
  (forall i, In i (spC (ctl w)) -> even_bounds h i) ->
  fresh_steps (wps w p) h (spCost (ctl w)) -> (spB (ctl w) <> [] \/ stale world0 false h = false) ->
  exact_solver e -> solve e w = Some (true, w') ->
  let ps := wps w' p in
  let k := fullUDim ps in
  let Q := qQ (m_qp (ctl w')) in
  let J := joint_cost ps h (spCost (ctl w)) s n k in
  let extra := fun y => (half * sum n (fun i => y i * apply n (fun i j => at_ Q i j - at_ (isR s) i j) y i)
                         - total_cost_from ps h (spCost (ctl w)) y (fun _ => 0))%Qc in
  let admissible := fun y V => within_bounds n (vget (isx0lb s)) (vget (isx0ub s)) y /\ all_imposed_from ps h (spC (ctl w)) y V /\
                               (spB (ctl w) = [] -> representable k V) in
  exists x, initialState w' = Some x /\ admissible (vget x) (vget (m_ctrl (ctl w'))) /\
    forall y V, admissible y V -> (J (vget x) (vget (m_ctrl (ctl w'))) + extra (vget x) <= J y V + extra y)%Qc.
Proof.
  intros n m N h w p s e w' SF FP CA HO RE Ep Is NSc FS ST EX So. cbv zeta.
  pose (S := Build_solved n m N h w p e true w' SF FP RE HO Ep So).
  destruct (C49_optimal_from_initial_state n m N h w p s e w' SF FP CA HO RE Ep Is NSc FS ST EX So) as [x [Ex [Xz [EA [EB [Ed [SD [BX [Tr [[AX RX] _]]]]]]]]]]. cbv zeta in *.
  destruct (sd_ps _ _ _ _ _ _ _ _ _ S) as [R _].
  destruct (si_dims n m N SF h w p s e true w' S Is) as [Dn [Dk [[_ [_ [Y0 _]]] [_ [_ [Z3 _]]]]]]. rewrite Dn in BX.
  exists x. split; [exact Ex|]. split; [auto|]. intros y V [BY [AY RY]].
  destruct (pi_m _ _ (sd_pinv _ _ _ _ _ _ _ _ _ S) p Ep) as [Np _].
  destruct (solve_qp _ _ _ _ So) as [u [Eb [Q1 [Q2 [Q3 [_ [_ [_ [_ [_ Q5]]]]]]]]]]. rewrite <- Q1, <- Q2, <- Q3 in Q5.
  destruct (EX _ _ _ _ _ Q5 (si_called n m N SF h w p s e true w' S Is)) as [Sz [Fe Op]].
  assert (Dnw : xDim (wps w p) = n) by (rewrite <- Dn; symmetry; apply SD). assert (Dkw : fullUDim (wps w p) = m * N) by (rewrite <- Dk; symmetry; apply SD).
  assert (Vs : vsize (m_sol (ctl w')) = xDim (wps w p) + fullUDim (wps w p)) by (rewrite Sz, Z3; lia).
  destruct (C35_success_publishes_initial_state h w p s e w' RE HO Ep Is Np So Vs) as [_ [Ct [[x' [Ex' [_ [Xs _]]]] _]]]. cbv zeta in Ct, Xs. rewrite Ex in Ex'. injection Ex' as <-.
  rewrite Dk, Dn in Ct. rewrite Dn in Xs.
  pose proof (fresh_steps_dims _ _ _ _ SD FS) as FS'.
  assert (Fq : forall X, feasible (m_qp (ctl w')) X <-> _) by (intro X; exact (si_feasible n m N SF h w p s e true w' S Is X CA ST NSc)).
  assert (Vq : forall X, qp_value (m_qp (ctl w')) X = _) by (intro X; exact (si_value n m N SF h w p s e true w' S Is X CA FS')). cbv zeta in Vq.
  assert (A := C28_assembly_initial_state h w p s e true w' RE Ep Is So). cbv zeta in A. rewrite Dn, Dk in A. specialize (A Y0).
  destruct A as [_ [_ [_ [_ [_ [_ [_ [_ [_ [Hr _]]]]]]]]]].
  set (Q := qQ (m_qp (ctl w'))) in *. set (c := qc (m_qp (ctl w'))) in *.
  assert (OB : forall y, objective n (at_ Q) (vget c) y = (objective n (at_ (isR s)) (vget (isr s)) y + half * sum n (fun i => y i * apply n (fun i j => at_ Q i j - at_ (isR s) i j) y i))%Qc).
  { intro z. unfold objective. rewrite (sum_ext n (fun i => vget c i * z i)%Qc (fun i => vget (isr s) i * z i)%Qc) by (intros i Hi; rewrite Hr by exact Hi; reflexivity).
    rewrite (sum_ext n (fun i => z i * apply n (at_ Q) z i)%Qc (fun i => z i * apply n (at_ (isR s)) z i + z i * apply n (fun i j => at_ Q i j - at_ (isR s) i j) z i)%Qc).
    - rewrite sum_add. ring.
    - intros i Hi. rewrite <- Qcmult_plus_distr_r. f_equal. unfold apply. rewrite <- sum_add. apply sum_ext. intros; ring. }
  assert (G : forall X z W, (forall i, i < n -> X i = z i) -> (forall j, j < m * N -> ctrl_part n X j = W j) ->
     qp_value (m_qp (ctl w')) X = (joint_cost (wps w' p) h (spCost (ctl w)) s n (m * N) z W
       + (half * sum n (fun i => z i * apply n (fun i j => at_ Q i j - at_ (isR s) i j) z i) - total_cost_from (wps w' p) h (spCost (ctl w)) z (fun _ => 0)))%Qc).
  { intros X z W Hz HW. rewrite Vq, (objective_ext n _ _ X z Hz), OB. unfold joint_cost.
    assert (TC : forall V V', (forall i, i < m * N -> V i = V' i) ->
       total_cost_from (wps w' p) h (spCost (ctl w)) X V = total_cost_from (wps w' p) h (spCost (ctl w)) z V').
    { intros V1 V2 HV. unfold total_cost_from. apply lsum_ext. intros i Hi. destruct (cost_data_of h i) as [d|]; [|reflexivity].
      apply cost_value_ext_x; [exact R|rewrite Dn; exact Hz|rewrite Dk; exact HV]. }
    rewrite (TC _ W HW), (TC _ (fun _ => 0%Qc) (fun i _ => eq_refl)).
    assert (RG : regularization (m * N) (ctrl_part n X) = regularization (m * N) W).
    { unfold regularization. do 2 f_equal. apply sum_ext. intros i Hi. rewrite HW by exact Hi. reflexivity. }
    rewrite RG. ring. }
  rewrite Dk in *.
  assert (FC : feasible (m_qp (ctl w')) (cat n y V)).
  { apply Fq. split; [intros i Hi; rewrite cat_l by exact Hi; apply BY; exact Hi|]. split.
    - intros i d Hi Hd. specialize (AY i d Hi Hd). revert AY. apply imposes_ext; [exact R| |]; intros j Hj; [rewrite Dn in Hj; apply cat_l; exact Hj|apply cat_r].
    - intro E. eapply representable_ext; [intros; symmetry; apply cat_r|exact (RY E)]. }
  specialize (Op _ FC).
  rewrite (G (vget (m_sol (ctl w'))) (vget x) (vget (m_ctrl (ctl w')))) in Op; [|intros i Hi; symmetry; apply Xs; exact Hi|intros j Hj; symmetry; apply Ct; exact Hj].
  rewrite (G (cat n y V) y V) in Op; [|intros i Hi; apply cat_l; exact Hi|intros j Hj; apply cat_r]. exact Op.
Qed.
Print Assumptions C50_joint_minimum_partial.

(** with exact solver and exact inverse, R = 1, nonnegative weights, [ex49] publishes the initial state -1; the initial
    state 1 without control is admissible and cheaper *)
Theorem C50_joint_minimum_refuted : exists h w p s e w' x y V,
  sizes_fit 1 1 2 /\ follows_protocol 1 1 2 world0 h /\ callable world0 h /\ honest world0 h /\ nonneg_weights h /\ reached h w /\
  m_ps (ctl w) = Some p /\ m_is (ctl w) = Some s /\ symmetric 1 (at_ (isR s)) /\ pos_def 1 (at_ (isR s)) /\
  (forall i, even_bounds h i) /\ (forall e', ~ In (OSolve e') h) /\
  exact_solver e /\ solve e w = Some (true, w') /\ right_inverse e (1 * 2) (fun i j => at_ (qQ (m_qp (ctl w'))) (1 + i) (1 + j)) /\
  initialState w' = Some x /\
  within_bounds 1 (vget (isx0lb s)) (vget (isx0ub s)) y /\
  all_imposed_from (wps w' p) h (spC (ctl w)) y V /\
  (joint_cost (wps w' p) h (spCost (ctl w)) s 1 2 y V < joint_cost (wps w' p) h (spCost (ctl w)) s 1 2 (vget x) (vget (m_ctrl (ctl w'))))%Qc.
Proof.
  assert (C : match run world0 ex49 with
    | Some w => match m_ps (ctl w), m_is (ctl w), solve env49 w with
                | Some p, Some s, Some (true, w') =>
                    match initialState w' with
                    | Some x =>
                      let J := joint_cost (wps w' p) ex49 (spCost (ctl w)) s 1 2 in
                      negb (qleb (J (vget x) (vget (m_ctrl (ctl w')))) (J (fun _ => 1%Qc) (fun _ => 0%Qc))) &&
                      within_boundsb 1 (vget (isx0lb s)) (vget (isx0ub s)) (fun _ => 1%Qc) &&
                      match spC (ctl w) with [0; 1] => true | _ => false end &&
                      Nat.eqb (xDim (wps w' p)) 1 && Nat.eqb (uDim (wps w' p)) 1 && Nat.eqb (nrXStep (wps w' p)) 3 && Nat.eqb (nrUStep (wps w' p)) 2 &&
                      allb 3 (fun k => qeqb (apply 1 (at_ (mlit [[1]]%Z)) (state_of (wps w' p) (fun _ => 1%Qc) (fun _ => 0%Qc) k) 0) 1%Qc)
                    | None => false end
                | _, _, _ => false end
    | None => false end = true) by (vm_compute; reflexivity).
  destruct C49_example as [SF [FP [CA [HO [NW [EX [NC _]]]]]]]. destruct C39_example as [C39 _].
  destruct (run world0 ex49) as [w|] eqn:Er; [|discriminate C]. specialize (C39 w Er).
  destruct (m_ps (ctl w)) as [p|] eqn:Ep; [|discriminate C]. destruct (m_is (ctl w)) as [s|] eqn:Ei; [|discriminate C].
  destruct (solve env49 w) as [[[|] w']|] eqn:Es; try discriminate C. destruct (initialState w') as [x|] eqn:Ex; [|discriminate C]. cbv zeta in C.
  apply andb_true_iff in C as [C C8]. apply andb_true_iff in C as [C C7]. apply andb_true_iff in C as [C C6]. apply andb_true_iff in C as [C C5]. apply andb_true_iff in C as [C C4].
  apply andb_true_iff in C as [C C3]. apply andb_true_iff in C as [C1 C2].
  destruct (spC (ctl w)) as [|[|a] [|[|[|b]] [|]]] eqn:El; try discriminate C3.
  apply Nat.eqb_eq in C4, C5, C6, C7.
  exists ex49, w, p, s, env49, w', x, (fun _ => 1%Qc), (fun _ => 0%Qc).
  do 5 (split; [assumption|]). split; [exact Er|]. split; [exact Ep|]. split; [exact Ei|]. split; [apply C39|]. split; [apply C39|].
  split; [exact NC|]. split; [intros e' H; cbn in H; repeat (destruct H as [H|H]; [try discriminate H|]); contradiction|].
  split; [exact EX|]. split; [exact Es|]. split; [apply C39|]. split; [exact Ex|]. split; [apply within_boundsb_ok; exact C2|].
  split.
  - rewrite El. intros i d [<-|[<-|[]]] H; cbn in H; injection H as <-; cbn [imposes means].
    + unfold traj_means. rewrite C4, C6. cbn [Nat.eqb cols mlit length]. intros k i Hk Hi. cbn in Hi. replace i with 0 by lia.
      rewrite allb_ok in C8. specialize (C8 k Hk). apply qeqb_ok in C8. rewrite C8. apply qleb_ok. reflexivity.
    + unfold ctrl_between. rewrite C5. cbn [Nat.eqb vsize elit length]. intros k Hk i Hi. replace i with 0 by lia. cbn. split; apply qleb_ok; reflexivity.
  - apply Qcnot_le_lt. intro L. apply qleb_ok in L. rewrite L in C1. discriminate C1.
Qed.
Print Assumptions C50_joint_minimum_refuted.
