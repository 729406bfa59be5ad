(** FloatSolve.v -- C71: the problem of one solve of a controller that rounds, in terms of what the user gave. *)
From Coq Require Import Qcabs.
From Verif Require Import Base Eigen Spec Preview SpecApi PreviewProofs AutoSpan AutoSpanProofs Constraints ConstraintProofs
  SpecConstraints ConstraintMeaning Checkers Costs SpecCosts CostProofs CostMeaning Properties_Costs Controller Registry SpecController Assembly
  Results SpecProtocol Protocol Properties_Protocol SpecEndToEnd SpanData Properties_Registry EndToEnd EndToEndQP EndToEndRows EndToEndMain.
From Verif Require Import Floats SpecFloats FloatProofs FloatPreview FloatConstraints FloatRows Properties_Floats
  FloatCosts SpecFloatCosts FloatCostProofs FloatCostRun FloatController SpecFloatRun FloatProtocol FloatTrace FloatMeaning FloatValue.
Open Scope nat_scope.
Open Scope list_scope.

Lemma f_sum_go F wk l : forall k s, f_sum_costs F k wk l s = f_go F k (map wk l) s.
Proof.
  induction l as [|i t IH]; intros k s; cbn [f_sum_costs map f_go]; [reflexivity|].
  destruct (f_add_cost F k (wk i) s); cbn [obind]; [apply IH|reflexivity].
Qed.

(** ** Rows up to a tolerance *)
Lemma meets_0 ineq l e : meets 0 ineq l e <-> cmp ineq l e.
Proof.
  unfold meets, cmp. destruct e as [|q|].
  - destruct ineq; cbn; intuition congruence.
  - destruct ineq; cbn.
    + replace (q + 0)%Qc with q by ring. tauto.
    + split.
      * intro H. apply Qcabs_Qcle_condition in H. destruct H as [H1 H2]. unfold q_eq_ext. f_equal. apply Qcle_antisym; revert H1 H2; qc_lra.
      * unfold q_eq_ext. intro E. injection E as E. subst q. replace (l - l)%Qc with 0%Qc by ring. rewrite Qcabs_pos by apply Qcle_refl. apply Qcle_refl.
  - destruct ineq; cbn; intuition congruence.
Qed.
Lemma meets_opp l e : meets 0 true (- l)%Qc (ext_opp e) <-> ext_le_q e l.
Proof.
  destruct e as [|q|]; cbn; [tauto| |tauto]. split; intro H; revert H; qc_lra.
Qed.
Lemma meets_s0 u s t ineq l e : met u s t 0 ineq l e 0%Qc <-> meets t ineq l e.
Proof.
  unfold met. assert (G : growth u 0 = 0%Qc) by (unfold growth; cbn; ring). rewrite G.
  match goal with |- meets ?a _ _ _ <-> _ => replace a with t by ring end. tauto.
Qed.
Lemma feasible_close q U : feasible q U <-> close_feasible 0 q U.
Proof.
  unfold feasible, close_feasible, rows_hold, close_rows, within_bounds, close_bounds.
  split; intros [H1 [H2 H3]]; (split; [|split]); intros i Hi.
  - apply meets_0, H1, Hi.
  - apply meets_0, H2, Hi.
  - destruct (H3 i Hi) as [A B]. split; [apply meets_opp, A|]. apply meets_0. destruct (vget (qub q) i); exact B.
  - apply meets_0, H1, Hi.
  - apply meets_0, H2, Hi.
  - destruct (H3 i Hi) as [A B]. split; [apply meets_opp, A|]. apply meets_0 in B. destruct (vget (qub q) i); exact B.
Qed.
Lemma row_error_margin u k l b lhs rhs size ineq : row_error u k l b lhs rhs size -> met u (- (1)) 0 k ineq lhs rhs size -> meets 0 ineq l b.
Proof.
  unfold row_error, met. destruct rhs as [|f|]; [intros ->; cbn; auto| |intros ->; cbn; auto].
  intros [q [-> H]]. cbn [meets ext_abs]. revert H. generalize (growth u k * (size + Qcabs f))%Qc. intros g H.
  apply Qcabs_Qcle_condition in H. destruct H as [H1 H2]. destruct ineq; intro M.
  - revert M H1 H2. qc_lra.
  - apply Qcabs_Qcle_condition in M. apply Qcabs_Qcle_condition. destruct M as [M1 M2]. split; revert M1 M2 H1 H2; qc_lra.
Qed.
Lemma row_error_met u k l b lhs rhs size t ineq : row_error u k l b lhs rhs size -> meets t ineq l b -> met u 1 t k ineq lhs rhs size.
Proof.
  intros H M. unfold met. rewrite Qcmult_1_l. exact (row_error_meets u k l b lhs rhs size t ineq H M).
Qed.
Lemma stacked_close t ineq nr row rhs k l A b U : stacked nr row rhs k l A b ->
  (close_rows t ineq A b U <-> forall i, In i l -> forall r, r < nr i -> meets t ineq (apply k (row i) U r) (rhs i r)).
Proof.
  intros [H1 [H2 [H3 H4]]]. unfold close_rows. rewrite H1, H2. split.
  - intros H i Hi r Hr. apply in_split in Hi as [l1 [l2 E]]. destruct (H4 l1 i l2 E r Hr) as [G1 G2].
    assert (Lt : rows_of nr l1 + r < rows_of nr l) by (rewrite E, rows_of_app, rows_of_cons; lia).
    specialize (H _ Lt). rewrite G2 in H. unfold apply in *. rewrite (sum_ext _ _ (fun j => row i r j * U j)%Qc) in H by (intros j Hj; rewrite (G1 j Hj); reflexivity). exact H.
  - intros H q Hq. destruct (find_row nr l q Hq) as [l1 [i [l2 [r [E [Hr ->]]]]]]. destruct (H4 l1 i l2 E r Hr) as [G1 G2]. rewrite G2.
    unfold apply. rewrite (sum_ext _ _ (fun j => row i r j * U j)%Qc) by (intros j Hj; rewrite (G1 j Hj); reflexivity).
    apply H; [rewrite E; apply in_app_iff; right; left; reflexivity|exact Hr].
Qed.

Section Solve.
Variables (u : Qc) (F : arith) (Ac : accurate u F) (reg : Qc).
Variables n m N : nat.
Hypothesis SF : sizes_fit n m N.
Notation D := (dps n m N).

Record f_assembled (w : world) (p : nat) (e : senv) (b : bool) (w' : world) : Prop := {
  fa_is : m_is (ctl w) = None;
  fa_comp : computed F (wps w' p);
  fa_dims : same_dims (wps w' p) D;
  fa_same : same_dims (wps w' p) (wps w p);
  fa_x0 : x0 (wps w' p) = x0 (wps w p);
  fa_A : psA (wps w' p) = psA (wps w p);
  fa_B : psB (wps w' p) = psB (wps w p);
  fa_d : psd (wps w' p) = psd (wps w p);
  fa_con : f_update_cons F (wps w' p) (spC (ctl w)) (wcon w) = Some (wcon w');
  fa_cost : f_update_costs F (wps w' p) (spCost (ctl w)) (wcost w) = Some (wcost w');
  fa_sized : qp_sized (fullUDim (wps w' p)) (m_qp (ctl w));
  fa_sum : f_sum_costs F 0 (wcost w') (spCost (ctl w))
             (mscal reg (mident (fullUDim (wps w' p)) (fullUDim (wps w' p))), vconst (fullUDim (wps w' p)) 0%Qc)
           = Some (qQ (m_qp (ctl w')), qc (m_qp (ctl w')));
  fa_eq : stacked (fun i => nrConstr (wcon w' i)) (fun i => at_ (cA (wcon w' i))) (fun i => vget (cb (wcon w' i)))
            (fullUDim (wps w' p)) (spEq (ctl w)) (qAeq (m_qp (ctl w'))) (qbeq (m_qp (ctl w')));
  fa_ineq : stacked (fun i => nrConstr (wcon w' i)) (fun i => at_ (cA (wcon w' i))) (fun i => vget (cb (wcon w' i)))
            (fullUDim (wps w' p)) (spIneq (ctl w)) (qAineq (m_qp (ctl w'))) (qbineq (m_qp (ctl w')));
  fa_b0 : spB (ctl w) = [] -> qlb (m_qp (ctl w')) = qlb (m_qp (ctl w)) /\ qub (m_qp (ctl w')) = qub (m_qp (ctl w));
  fa_b1 : forall i, spB (ctl w) = [i] -> nrConstr (wcon w' i) = vsize (qlb (m_qp (ctl w))) -> nrConstr (wcon w' i) = vsize (qub (m_qp (ctl w))) ->
            veq (qlb (m_qp (ctl w'))) (clb (wcon w' i)) /\ veq (qub (m_qp (ctl w'))) (cub (wcon w' i));
  fa_lbs : vsize (qlb (m_qp (ctl w'))) = fullUDim (wps w' p) /\ vsize (qub (m_qp (ctl w'))) = fullUDim (wps w' p);
  fa_call : exists r, s_qp e (vsize (qc (m_qp (ctl w')))) (rows (qAeq (m_qp (ctl w')))) (rows (qAineq (m_qp (ctl w')))) (m_qp (ctl w')) = (b, r) /\
     (b = true -> f_preview F (wps w' p) (x0 (wps w' p)) r = Some (m_traj (ctl w')) /\ m_ctrl (ctl w') = r)
}.
Lemma f_assembly w p e b w' : f_pinv F n m N w -> m_ps (ctl w) = Some p -> m_is (ctl w) = None ->
  f_solve F reg e w = Some (b, w') -> f_assembled w p e b w'.
Proof using Ac.
  intros P Ep Ei So. pose proof P as [PI L].
  destruct (f_solve_parts u F Ac reg n m N e w b w' P So) as [p' [ps [w1 [r [Ep' [_ [Eu [Eb [Es [W1 [W2 [W3 [W4 [W5 [W6 [W7 [W8 [W9 [W10 [Ec [Ek [SC TR]]]]]]]]]]]]]]]]]]]]]].
  rewrite Ep in Ep'. injection Ep' as <-.
  destruct (pi_m _ _ PI p Ep) as [Np Qs]. cbn [dressw reps wps] in Np. rewrite dress_nu in Np.
  cbn [dressw reps ctl] in Qs. unfold opt in Qs. rewrite Ei in Qs.
  destruct (f_ensure_live F D _ (L p Np)) as [ps' [Eu' [Lp [Up [X0 [EA [EB [Ed Sd]]]]]]]]. rewrite Eu in Eu'. injection Eu' as <-.
  destruct Lp as [SD [FR CC]]. specialize (CC Up).
  assert (PS : wps w' p = ps) by (rewrite W1; unfold upd; rewrite Nat.eqb_refl; reflexivity).
  assert (FU : fullUDim ps = fullUDim D) by apply SD.
  destruct (f_build_parts F reg e w w1 Eb) as [p' [ps' [wc [wk [q [Ep' [Eu' [Ec' [Ek' [Eq E1]]]]]]]]]]. cbv zeta in Eq, E1. rewrite Ei in Eq, TR.
  rewrite Ep in Ep'. injection Ep' as <-. rewrite Eu in Eu'. injection Eu' as <-.
  assert (C1 : wcon w1 = wc) by (rewrite E1; reflexivity). assert (C2 : wcost w1 = wk) by (rewrite E1; reflexivity).
  assert (Q1 : m_qp (ctl w1) = q) by (rewrite E1; reflexivity).
  destruct (f_cons_ok u F Ac n m N ps CC SD _ _ (pi_rcon _ _ PI)) as [wc' [Ec'' [_ [_ C3]]]]. cbn [dressw reps ctl wcon] in Ec''. rewrite Ec' in Ec''. injection Ec'' as <-.
  assert (NR : forall i, nrConstr (wc i) = nrConstr (wcon w i)) by (intro i; destruct (C3 i) as [[_ [_ [H3 _]]] _]; exact H3).
  assert (TT : forall l, total_rows (wcon w) l = rows_of (fun i => nrConstr (wc i)) l).
  { intro l. rewrite total_rows_of. apply rows_of_ext. intros i _. symmetry. apply NR. }
  assert (NE1 : nrEq (ctl w1) = total_rows (wcon w) (spEq (ctl w))) by (rewrite E1; reflexivity).
  assert (NI1 : nrIneq (ctl w1) = total_rows (wcon w) (spIneq (ctl w))) by (rewrite E1; reflexivity).
  unfold f_makeQPForm in Eq. cbv zeta in Eq.
  cbn [ctl wcost wcon updateConstraintMatrixSize m_qp set_qpm set_lists spCost spEq spIneq spB qQ qc qAeq qbeq qAineq qbineq qlb qub f_resetQP nrEq nrIneq] in Eq.
  destruct Qs as [Z1 [Z2 [Z3 [Z4 Z5]]]]. rewrite Z1, Z2, Z3, <- FU in Eq.
  destruct (f_sum_costs F 0 wk (spCost (ctl w)) _) as [[Q c]|] eqn:S1; [|discriminate Eq]. cbn [obind] in Eq.
  destruct (stack_rows _ wc (spEq (ctl w)) _) as [[[A b0] s]|] eqn:S2; [|discriminate Eq]. cbn [obind] in Eq.
  destruct (stack_rows _ wc (spIneq (ctl w)) _) as [[[A' b'] s']|] eqn:S3; [|discriminate Eq]. cbn [obind] in Eq.
  destruct (stack_bounds wc (spB (ctl w)) _) as [[[lb ub] s'']|] eqn:S4; [|discriminate Eq]. cbn [obind] in Eq. injection Eq as <-.
  match type of S2 with context [optSize ?M ps] => assert (OS : optSize M ps = fullUDim ps) by (unfold optSize; cbn; rewrite Ei; reflexivity) end.
  rewrite OS in S2, S3.
  apply (stack_stacked _ _ _ _ _ (stack_rows_writes wc (fullUDim ps))) in S2;
    [|rewrite mresize_rows; apply TT|apply mresize_cols|rewrite vresize_size; apply TT].
  apply (stack_stacked _ _ _ _ _ (stack_rows_writes wc (fullUDim ps))) in S3;
    [|rewrite mresize_rows; apply TT|apply mresize_cols|rewrite vresize_size; apply TT].
  split; rewrite ?PS, ?W6, ?Q1, ?W2, ?W3, ?C1, ?C2; cbn [qQ qc qAeq qbeq qAineq qbineq qlb qub]; try assumption.
  - rewrite FU. repeat split; assumption.
  - intro E. rewrite E in S4. cbn in S4. injection S4 as <- <- <-. auto.
  - pose proof S4 as S4'. apply stack_bounds_spec in S4'. destruct S4' as [D1 [D2 [D3 [D4 [D5 [D6 D7]]]]]].
    intros i E V1 V2. rewrite E in *. destruct (D5 i) as [L1 L2]; [left; reflexivity|].
    split; (split; [congruence|]); intros k Hk; destruct (D6 [] i [] eq_refl k) as [L3 L4]; try assumption; congruence.
  - pose proof S4 as S4'. apply stack_bounds_spec in S4'. destruct S4' as [D1 [D2 [D3 [D4 _]]]]. split; congruence.
  - exists r. split.
    + rewrite Q1, NE1, NI1 in Es. cbn [qc qAeq qAineq] in *. destruct S2 as [R2 _]. destruct S3 as [R3 _]. rewrite R2, R3, <- !TT. exact Es.
    + intro Eb'. destruct (TR Eb') as [x [T1 [T2 T3]]]. rewrite T2. auto.
Qed.

Variables (h : list op) (w : world) (p : nat) (e : senv) (b : bool) (w' : world).
Hypotheses (FP : f_follows_protocol F reg n m N world0 h) (CA : f_callable F reg world0 h) (HO : f_honest F reg world0 h)
  (RE : f_run F reg world0 h = Some w) (Ep : m_ps (ctl w) = Some p) (NI : m_is (ctl w) = None) (So : f_solve F reg e w = Some (b, w')).
Notation ps := (wps w' p).

Lemma fs_inv : finv F n m N h w.
Proof using Ac SF FP CA HO RE. exact (finv_holds u F Ac reg n m N SF h w FP CA HO RE). Qed.
Lemma fs_asm : f_assembled w p e b w'.
Proof using Ac SF FP CA HO RE Ep NI So. apply f_assembly; [apply (fi_p _ _ _ _ _ _ fs_inv)|assumption|assumption|assumption]. Qed.
Lemma fs_rcon i : In i (spC (ctl w)) -> c_inited D (wcon w i).
Proof using Ac SF FP CA HO RE. intro Hi. exact (pi_rcon _ _ (proj1 (fi_p _ _ _ _ _ _ fs_inv)) i Hi). Qed.
Lemma fs_rcost i : In i (spCost (ctl w)) -> k_inited D (wcost w i).
Proof using Ac SF FP CA HO RE. intro Hi. exact (pi_rcost _ _ (proj1 (fi_p _ _ _ _ _ _ fs_inv)) i Hi). Qed.
Lemma fs_reg : reg_inv (dressw w).
Proof using Ac SF FP CA HO RE. exact (pi_reg _ _ (proj1 (fi_p _ _ _ _ _ _ fs_inv))). Qed.
Lemma fs_sum_sizes : rows (qQ (m_qp (ctl w'))) = fullUDim ps /\ cols (qQ (m_qp (ctl w'))) = fullUDim ps /\ vsize (qc (m_qp (ctl w'))) = fullUDim ps.
Proof using Ac SF FP CA HO RE Ep NI So.
  pose proof fs_asm as A. destruct A as [A1 CC SD _ _ _ _ _ _ Ek Qs Sm _ _ _ _ _ _].
  destruct (f_costs_ok u F Ac n m N ps CC SD _ _ (fun i Hi => fs_rcost i Hi)) as [wk [Ek' [K1 _]]]. rewrite Ek in Ek'. injection Ek' as <-.
  assert (FU : fullUDim ps = fullUDim D) by apply SD.
  destruct (f_sum_ok F (fullUDim ps) (wcost w') (spCost (ctl w)) 0 (mscal reg (mident (fullUDim ps) (fullUDim ps))) (vconst (fullUDim ps) 0%Qc)
    eq_refl eq_refl eq_refl) as [Q [c [E1 [RQ [CQ VC]]]]].
  { intros i Hi. destruct (K1 i (fs_rcost i Hi)) as [[Z _] _]. unfold k_sized in Z. rewrite FU. tauto. }
  rewrite Sm in E1. injection E1 as -> ->. auto.
Qed.
Lemma fs_well_sized : well_sized (vsize (qc (m_qp (ctl w')))) (rows (qAeq (m_qp (ctl w')))) (rows (qAineq (m_qp (ctl w')))) (m_qp (ctl w')).
Proof using Ac SF FP CA HO RE Ep NI So.
  pose proof fs_asm as A. destruct fs_sum_sizes as [Q1 [Q2 Q3]]. destruct A as [_ _ _ _ _ _ _ _ _ _ _ _ SE SI _ _ [L1 L2] _].
  destruct SE as [SE1 [SE2 [SE3 _]]]. destruct SI as [SI1 [SI2 [SI3 _]]].
  unfold well_sized. repeat split; try reflexivity; congruence.
Qed.

(** ** The constraints *)
Lemma fs_con i : In i (spC (ctl w)) -> even_bounds h i ->
  exists d, con_data_of h i = Some d /\ con_alike (c_given (wcon w i)) d /\ lines_fresh (wcon w i) /\
    f_rows_near u ps (wcon w i) (wcon w' i) /\ nrConstr (wcon w' i) = nrConstr (wcon w i) /\ valid_shape ps (new_con (c_given (wcon w i))).
Proof using Ac SF FP CA HO RE Ep NI So.
  intros Hi NS. pose proof fs_asm as [_ CC SD _ _ _ _ _ Ec _ _ _ _ _ _ _ _ _]. pose proof fs_inv as I.
  pose proof (fi_p _ _ _ _ _ _ I) as [PI _]. pose proof (fi_nc _ _ _ _ _ _ I) as CL.
  pose proof (ri_con _ (pi_reg _ _ PI) i Hi) as Lt. cbn [dressw reps ncon] in Lt. rewrite <- CL in Lt. apply nth_error_Some in Lt.
  assert (exists d, con_data_of h i = Some d) as [d Ed] by (unfold con_data_of; destruct (nth_error (new_cons h) i); [eauto|congruence]).
  exists d. destruct (fi_con _ _ _ _ _ _ I i d Ed) as [G1 G2]. split; [exact Ed|]. split; [exact G1|]. split; [exact (G2 NS)|].
  split; [exact (f_update_cons_near u F Ac n m N ps CC SD _ _ _ Ec (fun i Hi => fs_rcon i Hi) i Hi)|].
  destruct (f_cons_ok u F Ac n m N ps CC SD _ _ (fun i Hi => fs_rcon i Hi)) as [wc' [Ec'' [_ [_ C3]]]]. rewrite Ec in Ec''. injection Ec'' as <-.
  split; [destruct (C3 i) as [[_ [_ [H3 _]]] _]; exact H3|].
  destruct (inited_valid D _ (fs_rcon i Hi) (G2 NS)) as [V _]. apply (valid_shape_dims D ps) in V; [exact V|apply same_dims_sym; exact SD].
Qed.
Lemma fs_wf : ps_wf ps /\ vsize (x0 ps) = xDim ps.
Proof using Ac SF FP CA HO RE Ep NI So. exact (computed_inv F _ (fa_comp _ _ _ _ _ fs_asm)). Qed.

(** a row predicate on the user's data, row by row of the problem *)
Lemma fs_each i d x U (P : row_pred) : In i (spC (ctl w)) -> even_bounds h i -> con_data_of h i = Some d ->
  (ck (wcon w i) <> KCtrlB ->
     ((forall r, r < nrConstr (wcon w i) -> P (crnd ps (wcon w i)) (isIneq (wcon w i)) (c_lin ps (wcon w i) r x U) (c_rhs ps (wcon w i) r) (c_size ps (wcon w i) r x U)) <->
      each_row ps d x U P)) /\
  (ck (wcon w i) = KCtrlB ->
     ((forall k, k < fullUDim ps -> P 0 true (- U k)%Qc (ext_opp (cb_lo ps (wcon w i) k)) 0%Qc /\ P 0 true (U k) (cb_up ps (wcon w i) k) 0%Qc) <->
      each_row ps d x U P)).
Proof using Ac SF FP CA HO RE Ep NI So.
  intros Hi NS Ed. destruct (fs_con i Hi NS) as [d' [Ed' [G1 [G2 [_ [_ V]]]]]]. rewrite Ed in Ed'. injection Ed' as <-.
  pose proof fs_wf as [W _]. pose proof (fa_dims _ _ _ _ _ fs_asm) as SD. pose proof (fs_rcon i Hi) as I.
  pose proof (each_row_alike ps _ d x U P W G1 V) as EA. split; intro K.
  - rewrite <- EA. apply (inited_each_row ps D W SD); assumption.
  - rewrite <- EA. apply (inited_each_bound ps D W SD); assumption.
Qed.
(** ** Feasibility, row by row of the objects *)
Notation FU := (fullUDim (wps w' p)).
Definition row_close (t : Qc) (U : nat -> Qc) (i : nat) : Prop :=
  (ck (wcon w i) <> KCtrlB -> forall r, r < nrConstr (wcon w i) ->
     meets t (isIneq (wcon w i)) (apply FU (at_ (cA (wcon w' i))) U r) (vget (cb (wcon w' i)) r)) /\
  (ck (wcon w i) = KCtrlB -> forall k, k < FU ->
     meets t true (- U k)%Qc (ext_opp (vget (clb (wcon w' i)) k)) /\ meets t true (U k) (vget (cub (wcon w' i)) k)).
Lemma fs_close t U : (forall i, In i (spC (ctl w)) -> even_bounds h i) ->
  (close_feasible t (m_qp (ctl w')) U <->
   (forall i, In i (spC (ctl w)) -> row_close t U i) /\ (spB (ctl w) = [] -> close_bounds t (qlb (m_qp (ctl w))) (qub (m_qp (ctl w))) U)).
Proof using Ac SF FP CA HO RE Ep NI So.
  intro NS. pose proof fs_asm as A. pose proof (fa_dims _ _ _ _ _ A) as SD. pose proof (fa_sized _ _ _ _ _ A) as [_ [_ [_ [Y1 Y2]]]].
  pose proof fs_reg as RI. pose proof (fi_p _ _ _ _ _ _ fs_inv) as [PI _].
  unfold close_feasible. rewrite (stacked_close t false _ _ _ _ _ _ _ U (fa_eq _ _ _ _ _ A)), (stacked_close t true _ _ _ _ _ _ _ U (fa_ineq _ _ _ _ _ A)).
  pose proof (ri_eq _ RI) as Eq1. pose proof (ri_ineq _ RI) as Eq2. pose proof (ri_b _ RI) as Eq3. cbn [dressw reps ctl wcon] in Eq1, Eq2, Eq3.
  rewrite Eq1, Eq2.
  assert (IQ : forall i, In i (spC (ctl w)) -> ck (wcon w i) = KTrajB -> isIneq (wcon w i) = true).
  { intros i Hi Q. destruct (fs_con i Hi (NS i Hi)) as [d [_ [_ [LF _]]]]. apply (LF Q). }
  assert (NR : forall i, In i (spC (ctl w)) -> nrConstr (wcon w' i) = nrConstr (wcon w i)).
  { intros i Hi. destruct (fs_con i Hi (NS i Hi)) as [d [_ [_ [_ [_ [E _]]]]]]. exact E. }
  assert (INB : forall i, In i (spB (ctl w)) <-> In i (spC (ctl w)) /\ ck (wcon w i) = KCtrlB).
  { intro i. rewrite Eq3, in_of_type. unfold has_type, constraintType. destruct (ck (wcon w i)); destruct (isIneq (wcon w i)); intuition congruence. }
  rewrite <- and_assoc.
  match goal with |- (?R /\ ?B <-> _) => 
    assert (HR : R <-> forall i, In i (spC (ctl w)) -> ck (wcon w i) <> KCtrlB -> forall r, r < nrConstr (wcon w i) ->
       meets t (isIneq (wcon w i)) (apply FU (at_ (cA (wcon w' i))) U r) (vget (cb (wcon w' i)) r));
    [|assert (HB : B <-> (forall i, In i (spC (ctl w)) -> ck (wcon w i) = KCtrlB -> forall k, k < FU ->
       meets t true (- U k)%Qc (ext_opp (vget (clb (wcon w' i)) k)) /\ meets t true (U k) (vget (cub (wcon w' i)) k)) /\
       (spB (ctl w) = [] -> close_bounds t (qlb (m_qp (ctl w))) (qub (m_qp (ctl w))) U))]
  end.
  - split.
    + intros [H1 H2] i Hi NB r Hr. rewrite <- (NR i Hi) in Hr. destruct (isIneq (wcon w i)) eqn:Qi.
      * apply H2; [|exact Hr]. apply in_of_type. split; [exact Hi|]. unfold has_type, constraintType. rewrite Qi. destruct (ck (wcon w i)); reflexivity || congruence.
      * apply H1; [|exact Hr]. apply in_of_type. split; [exact Hi|]. unfold has_type, constraintType. rewrite Qi.
        destruct (ck (wcon w i)) eqn:Q; try reflexivity; [rewrite IQ in Qi by assumption; discriminate|congruence].
    + intro H. split; intros i Hi r Hr; apply in_of_type in Hi as [Hi T]; rewrite (NR i Hi) in Hr; unfold has_type, constraintType in T.
      * assert (NB : ck (wcon w i) <> KCtrlB) by (intro Q; rewrite Q in T; discriminate).
        assert (Qi : isIneq (wcon w i) = false) by (destruct (ck (wcon w i)), (isIneq (wcon w i)); congruence).
        specialize (H i Hi NB r Hr). rewrite Qi in H. exact H.
      * assert (NB : ck (wcon w i) <> KCtrlB) by (intro Q; rewrite Q in T; discriminate).
        assert (Qi : isIneq (wcon w i) = true) by (destruct (ck (wcon w i)) eqn:Q; try (apply IQ; assumption); destruct (isIneq (wcon w i)); congruence).
        specialize (H i Hi NB r Hr). rewrite Qi in H. exact H.
  - pose proof (pi_b _ _ PI) as LB. cbn [dressw reps ctl] in LB. destruct (fa_lbs _ _ _ _ _ A) as [Z1 Z2].
    destruct (spB (ctl w)) as [|i0 [|i1 l1]] eqn:Es; [| |cbn in LB; lia].
    + destruct (fa_b0 _ _ _ _ _ A Es) as [-> ->]. split.
      * intro H. split; [intros i Hi Q; exfalso; apply (proj2 (INB i)); auto|auto].
      * intros [_ H]. apply H. reflexivity.
    + destruct (proj1 (INB i0) (or_introl eq_refl)) as [Hi Q]. pose proof (fs_rcon i0 Hi) as [Sh _].
      assert (NF : nrConstr (wcon w' i0) = FU).
      { rewrite (NR i0 Hi). unfold c_shape in Sh. rewrite Q in Sh. destruct Sh as [_ [-> _]]. symmetry. apply SD. }
      destruct (fa_b1 _ _ _ _ _ A i0 Es) as [[V1 V2] [V3 V4]]; [congruence|congruence|].
      unfold close_bounds. rewrite Z1. split.
      * intro H. split; [|discriminate]. intros i Hi' Q'. assert (In i [i0]) as [<-|[]] by (apply INB; auto).
        intros k Hk. specialize (H k Hk). rewrite V2, V4 in H by lia. exact H.
      * intros [H _] k Hk. rewrite V2, V4 by lia. apply (H i0 Hi Q k Hk).
  - rewrite HR, HB. unfold row_close. split.
    + intros [H1 [H2 H3]]. split; [|exact H3]. intros i Hi. split; auto.
    + intros [H1 H2]. split; [intros i Hi; apply (H1 i Hi)|]. split; [intros i Hi; apply (H1 i Hi)|exact H2].
Qed.

(** what the solver answers nearly satisfies what the user asked *)
Lemma fs_all_met t U : (forall i, In i (spC (ctl w)) -> even_bounds h i) ->
  close_feasible t (m_qp (ctl w')) U -> all_met u 1 t ps h (spC (ctl w)) U.
Proof using Ac SF FP CA HO RE Ep NI So.
  intros NS C. apply (fs_close t U NS) in C as [C _]. intros i d Hi Ed.
  destruct (fs_each i d (vget (x0 ps)) U (met u 1 t) Hi (NS i Hi) Ed) as [E1 E2]. destruct (C i Hi) as [C1 C2].
  destruct (fs_con i Hi (NS i Hi)) as [d' [_ [_ [_ [[N1 N2] _]]]]].
  assert (KC : ck (wcon w i) = KCtrlB \/ ck (wcon w i) <> KCtrlB) by (clear; destruct (ck (wcon w i)); [right|right|right|right|left]; congruence).
  destruct KC as [K|K].
  - apply (E2 K). intros k Hk. destruct (N2 K k Hk) as [Q1 Q2]. destruct (C2 K k Hk) as [M1 M2]. rewrite Q1 in M1. rewrite Q2 in M2.
    split; apply meets_s0; assumption.
  - apply (E1 K). intros r Hr. exact (row_error_met _ _ _ _ _ _ _ _ _ (N1 K r Hr U) (C1 K r Hr)).
Qed.
(** what the user asked with the margin of the rounding errors is accepted *)
Lemma fs_feasible V : (forall i, In i (spC (ctl w)) -> even_bounds h i) ->
  (spB (ctl w) <> [] \/ f_stale F reg world0 false h = false) ->
  all_met u (- (1)) 0 ps h (spC (ctl w)) V -> (spB (ctl w) = [] -> representable FU V) -> feasible (m_qp (ctl w')) V.
Proof using Ac SF FP CA HO RE Ep NI So.
  intros NS St H Re. apply feasible_close. apply (fs_close 0 V NS). split.
  - intros i Hi. destruct (fs_con i Hi (NS i Hi)) as [d [Ed [_ [_ [[N1 N2] _]]]]]. specialize (H i d Hi Ed).
    destruct (fs_each i d (vget (x0 ps)) V (met u (- (1)) 0) Hi (NS i Hi) Ed) as [E1 E2]. split.
    + intros K r Hr. exact (row_error_margin _ _ _ _ _ _ _ _ (N1 K r Hr V) (proj2 (E1 K) H r Hr)).
    + intros K k Hk. destruct (N2 K k Hk) as [-> ->]. destruct (proj2 (E2 K) H k Hk) as [M1 M2]. apply meets_s0 in M1. apply meets_s0 in M2. auto.
  - intro Es. destruct St as [St|St]; [congruence|]. pose proof fs_asm as A.
    destruct (f_free_inv u F Ac reg n m N SF h w FP CA HO RE (fa_is _ _ _ _ _ A) St) as [F1 F2].
    pose proof (fa_sized _ _ _ _ _ A) as [_ [_ [_ [Y1 Y2]]]]. specialize (Re Es).
    intros k Hk. destruct (Re k ltac:(lia)) as [R1 R2]. rewrite F1, F2 by lia. split; [apply meets_opp, R1|]. apply meets_0. exact R2.
Qed.
(** ** The objective *)
Lemma fs_cost_data i : In i (spCost (ctl w)) ->
  exists d, cost_data_of h i = Some d /\ cost_alike (k_given (wcost w i)) d /\ veq (kw (wcost w i)) (weights_of h i) /\
    k_inited D (wcost w i) /\ cost_fits ps (k_given (wcost w i)) /\ vsize (kw (wcost w i)) = cost_rows (k_given (wcost w i)).
Proof using Ac SF FP CA HO RE Ep NI So.
  intros Hi. pose proof (fa_dims _ _ _ _ _ fs_asm) as SD. pose proof fs_inv as I.
  pose proof (fi_p _ _ _ _ _ _ I) as [PI _]. pose proof (fi_nk _ _ _ _ _ _ I) as CL.
  pose proof (ri_cost _ (pi_reg _ _ PI) i Hi) as Lt. cbn [dressw reps ncost] in Lt. rewrite <- CL in Lt. apply nth_error_Some in Lt.
  assert (exists d, cost_data_of h i = Some d) as [d Ed] by (unfold cost_data_of; destruct (nth_error (new_costs h) i); [eauto|congruence]).
  exists d. destruct (fi_cost _ _ _ _ _ _ I i d Ed) as [G1 G2]. split; [exact Ed|]. split; [exact G1|]. split; [exact G2|].
  pose proof (fs_rcost i Hi) as KI. split; [exact KI|]. split; [|apply (inited_even D); exact KI].
  apply (fits_dims D); [apply same_dims_sym; exact SD|]. apply inited_fits. exact KI.
Qed.
Lemma fs_cost_obj i : fresh_steps ps h (spCost (ctl w)) -> In i (spCost (ctl w)) ->
  k_same (wcost w i) (wcost w' i) /\ k_shape ps (wcost w' i) /\ k_entry ps (wcost w' i) /\
  f_exact u (cost_roundings ps (wcost w i)) ps (wcost w' i) (wcost w' i).
Proof using Ac SF FP CA HO RE Ep NI So.
  intros FS Hi. pose proof fs_asm as A. pose proof (fa_dims _ _ _ _ _ A) as SD. pose proof (fa_comp _ _ _ _ _ A) as CC.
  destruct (fs_cost_data i Hi) as [d [Ed [G1 [G2 [KI [Fi Wr]]]]]].
  destruct (f_costs_ok u F Ac n m N ps CC SD _ _ (fun i Hi => fs_rcost i Hi)) as [wk [Ek [K1 [_ K3]]]].
  rewrite (fa_cost _ _ _ _ _ A) in Ek. injection Ek as <-.
  destruct (K1 i KI) as [Sh En]. pose proof (same_dims_sym _ _ SD) as SD'.
  split; [apply K3|]. split; [exact (k_shape_dims _ _ _ SD' Sh)|]. split; [exact (k_entry_dims _ _ _ SD' En)|].
  apply (f_exact_ext u _ ps (wcost w i)); [apply K3|].
  eapply (f_update_costs_exact u F Ac n m N SF ps CC SD); [exact (fa_cost _ _ _ _ _ A)|intros; apply fs_rcost; assumption|exact Hi|].
  assert (PS : k_acc (wcost w i) = per_step ps d).
  { destruct KI as [_ En']. rewrite <- (per_step_alike _ _ _ G1). unfold k_acc, per_step, k_given, k_entry in *.
    assert (X1 : xDim ps = xDim D) by apply SD. assert (X2 : uDim ps = uDim D) by apply SD. rewrite X1, X2.
    destruct (kk (wcost w i)); try reflexivity; rewrite En', negb_involutive; reflexivity. }
  rewrite PS. intro Pp. destruct (FS i d Hi Ed Pp) as [A1 A2]. split; [|exact A2]. exact (fi_zero _ _ _ _ _ _ fs_inv i A1 Hi).
Qed.
Lemma fs_value V : within u q1em6 reg -> fresh_steps ps h (spCost (ctl w)) ->
  near u (total_roundings ps h (spCost (ctl w))) (qp_value (m_qp (ctl w')) V)
    (regularization FU V + (total_cost ps h (spCost (ctl w)) V - total_cost ps h (spCost (ctl w)) (fun _ => 0)))%Qc
    (regularization FU V + total_size ps h (spCost (ctl w)) V)%Qc.
Proof using Ac SF FP CA HO RE Ep NI So.
  intros Wr FS. pose proof fs_asm as A. destruct fs_wf as [WF X0]. pose proof (proj1 Ac) as Hu.
  set (lev := fold_right (fun i m => Nat.max (match cost_data_of h i with Some d => data_roundings ps d | None => 1 end) m) 1 (spCost (ctl w))).
  assert (L1 : 1 <= lev).
  { unfold lev. clear. induction (spCost (ctl w)) as [|a l IH]; cbn [fold_right]; lia. }
  assert (LV : forall i d, In i (spCost (ctl w)) -> cost_data_of h i = Some d -> data_roundings ps d <= lev).
  { unfold lev. clear. induction (spCost (ctl w)) as [|a l IH]; cbn [fold_right]; intros i d Hi Ed; [destruct Hi|].
    destruct Hi as [->|Hi]; [rewrite Ed; lia|]. specialize (IH i d Hi Ed). lia. }
  destruct (f_sum_near u F reg ps (wcost w') lev (spCost (ctl w)) Ac Wr L1) as [Q [c [E [R1 [R2 [R3 NV]]]]]].
  { intros i Hi. destruct (fs_cost_obj i FS Hi) as [Sm [Sh [En [X1 [X2 [X3 X4]]]]]]. destruct (fs_cost_data i Hi) as [d [Ed [G1 _]]].
    assert (Le : cost_roundings ps (wcost w i) <= lev) by (rewrite given_roundings, (roundings_alike ps _ d G1); eapply LV; eassumption).
    destruct Sh as [Sz _]. unfold k_sized in Sz. cbn [fst snd].
    split; [tauto|]. split; [tauto|]. split; [tauto|]. split.
    - intros a1 b1 Ha Hb. eapply near_mono; [exact Hu|exact (X1 a1 b1 Ha Hb)|exact Le].
    - intros b1 Hb. eapply near_mono; [exact Hu|exact (X4 b1 Hb)|exact Le]. }
  rewrite <- f_sum_go in E. rewrite (fa_sum _ _ _ _ _ A) in E. injection E as EQ Ec. unfold qp_value. rewrite EQ, Ec, R3.
  unfold total_roundings. change (fold_right _ 1 (spCost (ctl w))) with lev.
  eapply near_up; [exact Hu|eapply near_eq; [exact (NV V)|..]|].
  - f_equal. rewrite fsum_lsum. unfold total_cost. rewrite <- lsum_sub. apply lsum_ext. intros i Hi.
    destruct (fs_cost_obj i FS Hi) as [Sm [Sh [En _]]]. destruct (fs_cost_data i Hi) as [d [Ed [G1 [G2 [KI [Fi Wr']]]]]].
    destruct (cost_values ps (wcost w' i) V WF X0 (proj1 (proj2 (proj2 Sh))) En) as [V1 _]. rewrite V1, Ed.
    rewrite !given_value. rewrite (k_given_eq (wcost w i) (wcost w' i)) by apply Sm.
    replace (kw (wcost w' i)) with (kw (wcost w i)) by (symmetry; apply Sm).
    rewrite !(cost_value_alike _ _ d _ (weights_of h i) _ _ G1 Fi Wr' G2). reflexivity.
  - reflexivity.
  - apply Qcplus_le_compat; [apply Qcle_refl|]. rewrite fsum_lsum. unfold total_size. apply lsum_mono. intros i Hi.
    destruct (fs_cost_obj i FS Hi) as [Sm [Sh [En _]]]. destruct (fs_cost_data i Hi) as [d [Ed [G1 [G2 [KI [Fi Wr']]]]]].
    destruct (cost_values ps (wcost w' i) V WF X0 (proj1 (proj2 (proj2 Sh))) En) as [_ V2]. eapply Qcle_trans; [exact V2|].
    rewrite Ed. rewrite given_size. rewrite (k_given_eq (wcost w i) (wcost w' i)) by apply Sm.
    replace (kw (wcost w' i)) with (kw (wcost w i)) by (symmetry; apply Sm).
    rewrite (cost_size_alike _ _ d _ (weights_of h i) _ _ G1 Fi Wr' G2). apply Qcle_refl.
Qed.
End Solve.
