(** Properties_Bridge.v -- C68: what InitialStateLMPC answers is what LMPC answers from the state it picks. *)
From Coq Require Import Permutation.
From Verif Require Import Base Eigen Spec Preview SpecApi PreviewProofs AutoSpan AutoSpanProofs Constraints ConstraintProofs
  SpecConstraints ConstraintMeaning Checkers Costs SpecCosts CostProofs CostMeaning Properties_Costs Controller Registry SpecController Assembly
  Results Properties_Assembly Properties_Results SpecProtocol Protocol Properties_Protocol SpecEndToEnd SpanData Properties_Registry
  EndToEnd EndToEndQP EndToEndRows EndToEndMain Convex ExactSolver Properties_EndToEnd Determined Properties_Problem StateExt
  InitialState Properties_InitialState Solvers SpecSolvers SolverProofs Existence Properties_Solvers SpecMeaning Meaning Properties_Meaning SpecBridge.

Section Free.
Variables (n m N : nat) (h : list op) (w : world) (p : nat) (s : ist) (e : senv) (b : bool) (w' : world).
Hypothesis PF : posed_free n m N h w p s e b w'.
Notation ps := (wps w' p).
Lemma pf_solved : solved n m N h w p e b w'.
Proof using PF. destruct PF as [SF FP CA HO RE Ep Is EV FS BD So]. exact (Build_solved n m N h w p e b w' SF FP RE HO Ep So). Qed.
Lemma pf_ready : ready ps /\ same_dims ps (dps n m N) /\ same_model ps (wps w p).
Proof using PF.
  destruct (sd_ps _ _ _ _ _ _ _ _ _ pf_solved) as [R [D [D' [_ [A [B [d _]]]]]]].
  split; [exact R|]. split; [exact D|]. split; [exact D'|]. split; [exact A|]. split; [exact B|exact d].
Qed.
Lemma pf_bound : spB (ctl w) = [] <-> forall i d, In i (spC (ctl w)) -> con_data_of h i = Some d -> ~ is_bound d.
Proof using PF.
  destruct PF as [SF FP CA HO RE Ep Is EV FS BD So]. pose proof (sv_pinv n m N SF h w FP RE) as P. pose proof (pi_reg _ _ P) as RI.
  assert (K : forall i d, In i (spC (ctl w)) -> con_data_of h i = Some d -> (ck (wcon w i) = KCtrlB <-> is_bound d)).
  { intros i d Hi Ed. destruct (sv_con n m N SF h w p e b w' FP RE HO Ep So i CA Hi (EV i Hi)) as [d' [Ed' [G1 _]]]. rewrite Ed in Ed'. injection Ed' as <-.
    unfold c_given in G1. clear - G1. destruct (ck (wcon w i)); try destruct (fullSizeEntry (wcon w i)); destruct d; cbn [con_alike] in G1; try contradiction; split; intro Q; first [discriminate Q|exact I|reflexivity|contradiction]. }
  assert (T : forall i, has_type BoundConstraint (wcon w i) = true <-> ck (wcon w i) = KCtrlB).
  { intro i. unfold has_type, constraintType. destruct (ck (wcon w i)), (isIneq (wcon w i)); cbn; split; intro Q; try discriminate Q; reflexivity. }
  rewrite (ri_b _ RI). split.
  - intros E i d Hi Ed Bd. apply (K i d Hi Ed) in Bd. apply T in Bd. assert (I0 : In i (of_type (wcon w) BoundConstraint (spC (ctl w)))) by (apply in_of_type; auto).
    rewrite E in I0. destruct I0.
  - intro H. destruct (of_type (wcon w) BoundConstraint (spC (ctl w))) as [|i l] eqn:E; [reflexivity|exfalso].
    assert (I0 : In i (of_type (wcon w) BoundConstraint (spC (ctl w)))) by (rewrite E; left; reflexivity). apply in_of_type in I0 as [Hi Ti].
    destruct (sv_con n m N SF h w p e b w' FP RE HO Ep So i CA Hi (EV i Hi)) as [d [Ed _]]. apply (H i d Hi Ed). apply (K i d Hi Ed). apply T. exact Ti.
Qed.
Lemma pf_feasible X : feasible (m_qp (ctl w')) X <-> within_bounds n (vget (isx0lb s)) (vget (isx0ub s)) X /\
   all_imposed_from ps h (spC (ctl w)) X (ctrl_part n X) /\ (spB (ctl w) = [] -> representable (m * N) (ctrl_part n X)).
Proof using PF. pose proof pf_solved as S. destruct PF as [SF FP CA HO RE Ep Is EV FS BD So]. exact (si_feasible n m N SF h w p s e b w' S Is X CA BD EV). Qed.
Lemma pf_dims : xDim ps = n /\ fullUDim ps = m * N.
Proof using PF. destruct pf_ready as [_ [D _]]. split; [transitivity (xDim (dps n m N))|transitivity (fullUDim (dps n m N))]; try apply D; reflexivity. Qed.
End Free.

Section Pair.
Variables (n m N : nat) (h1 : list op) (w1 : world) (p1 : nat) (e1 : senv) (b1 : bool) (v1 : world).
Variables (h2 : list op) (w2 : world) (p2 : nat) (s : ist) (e2 : senv) (b2 : bool) (v2 : world).
Hypothesis P1 : posed n m N h1 w1 p1 e1 b1 v1.
Hypothesis P2 : posed_free n m N h2 w2 p2 s e2 b2 v2.
Hypothesis SM : same_model (wps v1 p1) (wps v2 p2).
Hypothesis SC : same_constraints h1 (spC (ctl w1)) h2 (spC (ctl w2)).
Lemma br_bounds : spB (ctl w1) = [] <-> spB (ctl w2) = [].
Proof using P1 P2 SC.
  destruct SC as [SC1 SC2]. rewrite (po_bound _ _ _ _ _ _ _ _ _ P1), (pf_bound _ _ _ _ _ _ _ _ _ _ P2). split; intros H i d Hi Ed.
  - destruct (SC2 i Hi) as [j [Hj E]]. apply (H j d Hj). rewrite E. exact Ed.
  - destruct (SC1 i Hi) as [j [Hj E]]. apply (H j d Hj). rewrite <- E. exact Ed.
Qed.
Lemma br_imposed y V : (forall i, i < n -> y i = vget (x0 (wps v1 p1)) i) ->
  (all_imposed (wps v1 p1) h1 (spC (ctl w1)) V <-> all_imposed_from (wps v2 p2) h2 (spC (ctl w2)) y V).
Proof using P1 P2 SM SC.
  intro HX. destruct SC as [SC1 SC2]. destruct (po_ready _ _ _ _ _ _ _ _ _ P1) as [Rd [SD _]].
  assert (Dx : xDim (wps v1 p1) = n) by (transitivity (xDim (dps n m N)); [apply SD|reflexivity]).
  assert (IM : forall d, imposes (wps v1 p1) d (vget (x0 (wps v1 p1))) V <-> imposes (wps v2 p2) d y V).
  { intro d. rewrite <- (imposes_model _ _ _ _ _ SM). apply imposes_ext; [exact Rd|intros j Hj; symmetry; apply HX; rewrite <- Dx; exact Hj|reflexivity]. }
  split; intros H i d Hi Ed.
  - apply IM. destruct (SC2 i Hi) as [j [Hj E]]. apply (H j d Hj). rewrite E. exact Ed.
  - apply IM. destruct (SC1 i Hi) as [j [Hj E]]. apply (H j d Hj). rewrite <- E. exact Ed.
Qed.
Lemma br_cost y V : same_costs h1 (spCost (ctl w1)) h2 (spCost (ctl w2)) -> (forall i, i < n -> y i = vget (x0 (wps v1 p1)) i) ->
  total_cost (wps v1 p1) h1 (spCost (ctl w1)) V = total_cost_from (wps v2 p2) h2 (spCost (ctl w2)) y V.
Proof using P1 P2 SM.
  intros SK HX. destruct (po_ready _ _ _ _ _ _ _ _ _ P1) as [Rd [SD _]].
  assert (Dx : xDim (wps v1 p1) = n) by (transitivity (xDim (dps n m N)); [apply SD|reflexivity]).
  unfold total_cost, total_cost_from.
  set (g := fun a : option cost_data * vec Qc => match fst a with Some d => cost_value (wps v1 p1) d (snd a) (vget (x0 (wps v1 p1))) V | None => 0%Qc end).
  rewrite (lsum_map (spCost (ctl w1)) _ g (fun i => (cost_data_of h1 i, weights_of h1 i))) by reflexivity.
  rewrite (lsum_map (spCost (ctl w2)) _ g (fun i => (cost_data_of h2 i, weights_of h2 i))).
  - apply fold_perm. exact SK.
  - intro i. unfold g. cbn [fst snd]. destruct (cost_data_of h2 i) as [d|]; [|reflexivity]. rewrite <- (cost_value_model _ _ _ _ _ _ SM).
    apply cost_value_ext_x; [exact Rd|intros j Hj; apply HX; rewrite <- Dx; exact Hj|reflexivity].
Qed.
End Pair.

(** the same model, constraints and costs, the LMPC started at the published initial state: the same control and trajectory *)
Theorem C68_same_answer : forall n m N h1 w1 p1 e1 v1 h2 w2 p2 s e2 v2 x,
  posed n m N h1 w1 p1 e1 true v1 -> posed_free n m N h2 w2 p2 s e2 true v2 -> exact_solver e1 -> exact_solver e2 -> nonneg_weights h1 ->
  same_model (wps v1 p1) (wps v2 p2) -> same_constraints h1 (spC (ctl w1)) h2 (spC (ctl w2)) ->
  same_costs h1 (spCost (ctl w1)) h2 (spCost (ctl w2)) ->
  initialState v2 = Some x -> veq (x0 (wps v1 p1)) x ->
  veq (m_ctrl (ctl v2)) (m_ctrl (ctl v1)) /\ veq (m_traj (ctl v2)) (m_traj (ctl v1)).
Proof.
  intros n m N h1 w1 p1 e1 v1 h2 w2 p2 s e2 v2 x P1 P2 X1 X2 NW SM SC SK Ix VX.
  destruct (po_ready _ _ _ _ _ _ _ _ _ P1) as [Rd [SD _]]. pose proof (po_full _ _ _ _ _ _ _ _ _ P1) as F1. destruct (pf_dims _ _ _ _ _ _ _ _ _ _ P2) as [Dn Dk].
  destruct (po_optimal _ _ _ _ _ _ _ _ P1 X1) as [T1 [A1 [O1 U1]]].
  assert (H49 := P2). destruct H49 as [SF FP CA HO RE Ep Is EV FS BD So].
  destruct (C49_optimal_from_initial_state n m N h2 w2 p2 s e2 v2 SF FP CA HO RE Ep Is EV FS BD X2 So) as [x' [Ix' [Xz [_ [_ [_ [_ [_ [T2 [A2 [O2 _]]]]]]]]]]].
  rewrite Ix in Ix'. injection Ix' as <-. cbv zeta in A2, O2. rewrite Dk in A2, O2.
  assert (Dx : xDim (wps v1 p1) = n) by (transitivity (xDim (dps n m N)); [apply SD|reflexivity]).
  assert (HX : forall i, i < n -> vget x i = vget (x0 (wps v1 p1)) i) by (intros i Hi; symmetry; apply VX; rewrite (rd_x0 _ Rd), Dx; exact Hi).
  assert (AD : forall V, admissible h1 w1 (wps v1 p1) V <->
     all_imposed_from (wps v2 p2) h2 (spC (ctl w2)) (vget x) V /\ (spB (ctl w2) = [] -> representable (m * N) V)).
  { intro V. unfold admissible. rewrite (br_bounds n m N h1 w1 p1 e1 true v1 h2 w2 p2 s e2 true v2 P1 P2 SC), F1.
    apply and_iff_compat_r. exact (br_imposed n m N h1 w1 p1 e1 true v1 h2 w2 p2 s e2 true v2 P1 P2 SM SC (vget x) V HX). }
  assert (CO : forall V, full_cost h1 w1 (wps v1 p1) V = (total_cost_from (wps v2 p2) h2 (spCost (ctl w2)) (vget x) V + regularization (m * N) V)%Qc).
  { intro V. unfold full_cost. rewrite F1. f_equal. exact (br_cost n m N h1 w1 p1 e1 true v1 h2 w2 p2 s e2 true v2 P1 P2 SM (vget x) V SK HX). }
  assert (EU : forall i, i < m * N -> vget (m_ctrl (ctl v2)) i = vget (m_ctrl (ctl v1)) i).
  { intros i Hi. apply (U1 NW); [apply AD; exact A2| |rewrite F1; exact Hi]. rewrite !CO. apply O2. apply AD. exact A1. }
  destruct T1 as [Z1 [Y1 R1]], T2 as [Z2 [Y2 R2]]. split; [split; [congruence|intros i Hi; apply EU; congruence]|].
  pose proof SM as [[X [Y [Nu [Nx [FX FU]]]]] [HA [HB Hd]]].
  split; [congruence|]. intros i Hi. rewrite Z2, <- FX, (rd_fx _ Rd), (rd_nx _ Rd) in Hi.
  assert (Px : 0 < xDim (wps v1 p1)) by (destruct (xDim (wps v1 p1)); lia).
  pose proof (Nat.div_mod i (xDim (wps v1 p1)) ltac:(lia)) as E. pose proof (Nat.mod_upper_bound i (xDim (wps v1 p1)) ltac:(lia)) as M.
  assert (K : i / xDim (wps v1 p1) <= nrUStep (wps v1 p1)) by (assert (i / xDim (wps v1 p1) < nrUStep (wps v1 p1) + 1) by (apply Nat.div_lt_upper_bound; lia); lia).
  set (k := i / xDim (wps v1 p1)) in *. set (r := i mod xDim (wps v1 p1)) in *. replace i with (k * xDim (wps v1 p1) + r) by lia.
  rewrite (R1 k r) by assumption. rewrite X in M |- *. rewrite (R2 k r) by (rewrite <- ?Nu; assumption).
  unfold state_of. rewrite <- X, <- Y, <- HA, <- HB, <- Hd. apply (state_of_ext (wps v1 p1)); [exact Rd| | |exact K|rewrite X; exact M].
  - intros j Hj. apply HX. rewrite <- Dx. exact Hj.
  - intros j Hj. apply EU. rewrite <- F1. exact Hj.
Qed.
Print Assumptions C68_same_answer.

(** when InitialStateLMPC succeeds, an LMPC started at the state it published succeeds *)
Theorem C68_start_feasible : forall n m N h1 w1 p1 e1 b1 v1 h2 w2 p2 s e2 v2 x,
  posed n m N h1 w1 p1 e1 b1 v1 -> posed_free n m N h2 w2 p2 s e2 true v2 -> exact_solver e1 -> exact_solver e2 -> nonneg_weights h1 ->
  complete_for e1 (m_qp (ctl v1)) ->
  same_model (wps v1 p1) (wps v2 p2) -> same_constraints h1 (spC (ctl w1)) h2 (spC (ctl w2)) ->
  initialState v2 = Some x -> veq (x0 (wps v1 p1)) x -> b1 = true.
Proof.
  intros n m N h1 w1 p1 e1 b1 v1 h2 w2 p2 s e2 v2 x P1 P2 X1 X2 NW CP SM SC Ix VX.
  destruct (po_ready _ _ _ _ _ _ _ _ _ P1) as [Rd [SD _]]. pose proof (po_full _ _ _ _ _ _ _ _ _ P1) as F1. destruct (pf_dims _ _ _ _ _ _ _ _ _ _ P2) as [Dn Dk].
  assert (H49 := P2). destruct H49 as [SF FP CA HO RE Ep Is EV FS BD So].
  destruct (C49_optimal_from_initial_state n m N h2 w2 p2 s e2 v2 SF FP CA HO RE Ep Is EV FS BD X2 So) as [x' [Ix' [Xz [_ [_ [_ [_ [_ [_ [A2 _]]]]]]]]]].
  rewrite Ix in Ix'. injection Ix' as <-. cbv zeta in A2. rewrite Dk in A2.
  assert (Dx : xDim (wps v1 p1) = n) by (transitivity (xDim (dps n m N)); [apply SD|reflexivity]).
  assert (HX : forall i, i < n -> vget x i = vget (x0 (wps v1 p1)) i) by (intros i Hi; symmetry; apply VX; rewrite (rd_x0 _ Rd), Dx; exact Hi).
  assert (H := P1). destruct H as [SF1 FP1 CA1 HO1 RE1 Ep1 NI1 EV1 FS1 BD1 So1].
  destruct (C27_cost_matrix n m N h1 w1 p1 e1 b1 v1 SF FP1 NW RE1 Ep1 NI1 So1) as [_ [_ [Kz [_ [_ PD]]]]]. cbv zeta in Kz, PD.
  apply (C52_success_iff_feasible n m N h1 w1 p1 e1 b1 v1 SF FP1 HO1 RE1 Ep1 So1); [exact PD|exact X1|exact CP|].
  exists (vget (m_ctrl (ctl v2))). apply (po_admissible _ _ _ _ _ _ _ _ _ P1). unfold admissible.
  rewrite (br_bounds n m N h1 w1 p1 e1 b1 v1 h2 w2 p2 s e2 true v2 P1 P2 SC), F1. split; [|apply A2].
  apply (br_imposed n m N h1 w1 p1 e1 b1 v1 h2 w2 p2 s e2 true v2 P1 P2 SM SC (vget x) _ HX). apply A2.
Qed.
Print Assumptions C68_start_feasible.

(** when an LMPC succeeds from some state within the bounds of the initial state, InitialStateLMPC succeeds *)
Theorem C68_some_start : forall n m N h1 w1 p1 e1 v1 h2 w2 p2 s e2 b2 v2,
  posed n m N h1 w1 p1 e1 true v1 -> posed_free n m N h2 w2 p2 s e2 b2 v2 -> exact_solver e1 -> exact_solver e2 -> nonneg_weights h2 ->
  complete_for e2 (m_qp (ctl v2)) ->
  (* the cost of the initial state is positive definite; Eigen's inverse is exact on the cost matrix of the controls *)
  pos_def n (at_ (isR s)) -> right_inverse e2 (m * N) (fun i j => at_ (qQ (m_qp (ctl v2))) (n + i) (n + j)) ->
  same_model (wps v1 p1) (wps v2 p2) -> same_constraints h1 (spC (ctl w1)) h2 (spC (ctl w2)) ->
  within_bounds n (vget (isx0lb s)) (vget (isx0ub s)) (vget (x0 (wps v1 p1))) -> b2 = true.
Proof.
  intros n m N h1 w1 p1 e1 v1 h2 w2 p2 s e2 b2 v2 P1 P2 X1 X2 NW CP PR RI SM SC WB.
  pose proof (po_full _ _ _ _ _ _ _ _ _ P1) as F1. destruct (po_optimal _ _ _ _ _ _ _ _ P1 X1) as [_ [[A1 B1] _]].
  assert (H := P2). destruct H as [SF FP CA HO RE Ep Is EV FS BD So].
  destruct (C39_positive_definite_partial n m N h2 w2 p2 s e2 b2 v2 SF FP HO NW RE Ep Is So RI) as [_ [_ [_ [_ [_ PD]]]]]. cbv zeta in PD.
  apply (C52_success_iff_feasible n m N h2 w2 p2 e2 b2 v2 SF FP HO RE Ep So); [exact (PD PR)|exact X2|exact CP|].
  exists (cat n (vget (x0 (wps v1 p1))) (vget (m_ctrl (ctl v1)))). apply (pf_feasible _ _ _ _ _ _ _ _ _ _ P2).
  assert (CL : forall i, i < n -> cat n (vget (x0 (wps v1 p1))) (vget (m_ctrl (ctl v1))) i = vget (x0 (wps v1 p1)) i) by (intros i Hi; apply cat_l; exact Hi).
  assert (CR : forall i, ctrl_part n (cat n (vget (x0 (wps v1 p1))) (vget (m_ctrl (ctl v1)))) i = vget (m_ctrl (ctl v1)) i) by (intro i; apply cat_r).
  destruct (pf_ready _ _ _ _ _ _ _ _ _ _ P2) as [Rd2 _].
  split; [intros i Hi; rewrite CL by exact Hi; apply WB; exact Hi|]. split.
  - pose proof (proj1 (br_imposed n m N h1 w1 p1 e1 true v1 h2 w2 p2 s e2 b2 v2 P1 P2 SM SC _ _ (fun i _ => eq_refl)) A1) as A2.
    intros i d Hi Ed. specialize (A2 i d Hi Ed). revert A2. destruct (pf_dims _ _ _ _ _ _ _ _ _ _ P2) as [Dn Dk].
    apply imposes_ext; [exact Rd2|intros j Hj; first [apply CL|symmetry; apply CL]; rewrite <- Dn; exact Hj|intros j _; first [apply CR|symmetry; apply CR]].
  - intro E. apply (br_bounds n m N h1 w1 p1 e1 true v1 h2 w2 p2 s e2 b2 v2 P1 P2 SC) in E. specialize (B1 E). rewrite F1 in B1.
    intros i Hi. rewrite CR. apply B1. exact Hi.
Qed.
Print Assumptions C68_some_start.

(** [ex49] publishes the initial state -1; an LMPC started there, with the same constraints and costs added in another order *)
Definition ex68 : list op :=
  [OPs 0 (PSystem (mlit [[1]]%Z) (mlit [[1]]%Z) (vlit [0]%Z) (vlit [-1]%Z) 2); OConstruct j0 (CLMPCps 0) qempty;
   ONewCon (DCtrlB (elit [fin (-3)]) (elit [fin 3])); ONewCon (DTraj (mlit [[1]]%Z) (elit [fin 1]) true);
   ONewCost (DTargetC (mlit [[1]]%Z) (vlit [2]%Z)); OWeight 0 (qz 3); ONewCost (DTrajC (mlit [[1]]%Z) (vlit [4]%Z));
   OAddCon j0 0; OAddCon j0 1; OAddCost j0 0; OAddCost j0 1].
Definition cert68 : cert :=
  Cert [qz 2; qz 0] [] [qz 0; (qz 3 - qz 2 * q1em6)%Qc; qz 6] []
       [(qz 4, [qz 1; qz 1]); ((qz 1 + q1em6)%Qc, [qz 1]); (q1em6, [qz 0; qz 1])].
Example C68_example : exists w1 v1 w2 s v2 x,
  posed 1 1 2 ex68 w1 0 (env_certs [cert68]) true v1 /\ posed_free 1 1 2 ex49 w2 0 s env49 true v2 /\
  exact_solver (env_certs [cert68]) /\ exact_solver env49 /\ nonneg_weights ex68 /\ nonneg_weights ex49 /\
  complete_for (env_certs [cert68]) (m_qp (ctl v1)) /\ complete_for env49 (m_qp (ctl v2)) /\
  pos_def 1 (at_ (isR s)) /\ right_inverse env49 (1 * 2) (fun i j => at_ (qQ (m_qp (ctl v2))) (1 + i) (1 + j)) /\
  same_model (wps v1 0) (wps v2 0) /\ same_constraints ex68 (spC (ctl w1)) ex49 (spC (ctl w2)) /\
  same_costs ex68 (spCost (ctl w1)) ex49 (spCost (ctl w2)) /\
  initialState v2 = Some x /\ veq (x0 (wps v1 0)) x /\ vget x 0 = qz (-1) /\
  within_bounds 1 (vget (isx0lb s)) (vget (isx0ub s)) (vget (x0 (wps v1 0))) /\
  spC (ctl w1) = [0; 1] /\ spCost (ctl w1) = [0; 1].
Proof.
  assert (SF : sizes_fit 1 1 2) by (repeat split; lia).
  destruct (posedb_ok 1 1 2 ex68 (env_certs [cert68]) true SF ltac:(vm_compute; reflexivity)) as [w1 [v1 [R1 [S1 P1]]]].
  destruct C49_example as [_ [FP [CA [HO [NW [EX [EV [ST [AD C]]]]]]]]].
  destruct (run world0 ex49) as [w2|] eqn:R2; [|discriminate C]. pose proof (proj1 C39_example w2 R2) as PD.
  destruct (m_ps (ctl w2)) as [p2|] eqn:Ep; [|discriminate C]. destruct (m_is (ctl w2)) as [s|] eqn:Ei; [|discriminate C].
  destruct (solve env49 w2) as [[b2 v2]|] eqn:S2; [|discriminate C]. destruct b2; [|discriminate C].
  assert (D : match run world0 ex68, run world0 ex49 with
    | Some a, Some b => psA (wps a 0) = psA (wps b 0) /\ psB (wps a 0) = psB (wps b 0) /\ psd (wps a 0) = psd (wps b 0) /\ m_ps (ctl b) = Some 0 /\
        spC (ctl a) = [0; 1] /\ spC (ctl b) = [0; 1] /\ spCost (ctl a) = [0; 1] /\ spCost (ctl b) = [0; 1] /\ vsize (x0 (wps a 0)) = 1 /\ vget (x0 (wps a 0)) 0 = qz (-1) /\
        match m_is (ctl b) with Some s => vget (isx0lb s) 0 = fin (-1) /\ vget (isx0ub s) 0 = fin 1 | None => False end
    | _, _ => False end) by (vm_compute; repeat split).
  assert (K1 : match run world0 ex68 with Some a => match solve (env_certs [cert68]) a with Some (_, v) => kkt_check (m_qp (ctl v)) cert68 | None => false end | None => false end = true)
    by (vm_compute; reflexivity).
  assert (K2 : match run world0 ex49 with Some a => match solve env49 a with Some (_, v) => kkt_check (m_qp (ctl v)) cert49 && match initialState v with Some x => Nat.eqb (vsize x) 1 && qeqb (vget x 0) (qz (-1)) | None => false end | None => false end | None => false end = true)
    by (vm_compute; reflexivity).
  rewrite R1, S1 in K1. rewrite R2, S2 in K2. rewrite R1, R2, Ei in D. destruct D as [CA' [CB [Cd [Ep' [C1 [C2 [Q1 [Q2 [Xs [Xv [L U]]]]]]]]]]].
  rewrite Ep in Ep'. injection Ep' as ->. apply andb_prop in K2 as [K2 I2]. destruct (initialState v2) as [x|] eqn:Ix; [|discriminate I2]. apply andb_prop in I2 as [Xz X0].
  apply Nat.eqb_eq in Xz. apply qeqb_ok in X0.
  assert (C0 : match run world0 ex49 with Some w => cnt 0 (spCost (ctl w)) = 1 /\ forall d, cost_data_of ex49 1 = Some d -> per_step (wps w 0) d = false | None => False end).
  { vm_compute. split; [reflexivity|]. intros d H. injection H as <-. reflexivity. }
  rewrite R2 in C0. destruct C0 as [C0 C3].
  assert (P2 : posed_free 1 1 2 ex49 w2 0 s env49 true v2).
  { split; try assumption.
    - intros i _. apply EV.
    - rewrite Q2. intros i d [<-|[<-|[]]] Ed PS; [split; [exact AD|rewrite Q2 in C0; exact C0]|]. rewrite (C3 d Ed) in PS. discriminate PS.
    - right. exact ST. }
  destruct PD as [RI [_ PD]].
  exists w1, v1, w2, s, v2, x. split; [exact P1|]. split; [exact P2|]. split; [apply env_certs_exact|]. split; [exact EX|].
  split; [split; intros i y H; cbn in H; repeat (destruct H as [H|H]; [try discriminate H|]); try contradiction; injection H as _ <-; apply qleb_ok; reflexivity|].
  split; [exact NW|]. split; [apply kkt_complete; exact K1|]. split; [apply (certs_complete cert49); [reflexivity|exact K2]|]. split; [exact PD|]. split; [exact RI|].
  destruct (po_ready _ _ _ _ _ _ _ _ _ P1) as [Rd1 [SD1 [[_ [A1 [Bb1 E1]]] X1]]]. destruct (pf_ready _ _ _ _ _ _ _ _ _ _ P2) as [Rd2 [SD2 [_ [A2 [Bb2 E2]]]]].
  split; [split; [apply (same_dims_trans _ (dps 1 1 2)); [exact SD1|apply same_dims_sym; exact SD2]|split; [|split]; congruence]|].
  split; [rewrite C1, C2; split; intros i [<-|[<-|[]]]|].
  { exists 1. split; [right; left; reflexivity|reflexivity]. } { exists 0. split; [left; reflexivity|reflexivity]. }
  { exists 1. split; [right; left; reflexivity|reflexivity]. } { exists 0. split; [left; reflexivity|reflexivity]. }
  split; [rewrite Q1, Q2; cbn [map]; apply perm_swap|]. split; [exact Ix|].
  split; [split; [rewrite X1, Xs; symmetry; exact Xz|rewrite X1, Xs; intros [|i] Hi; [congruence|lia]]|]. split; [exact X0|].
  split; [intros [|i] Hi; [|lia]; rewrite X1, Xv, L, U; split; apply qleb_ok; reflexivity|]. split; assumption.
Qed.
