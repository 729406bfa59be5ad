(** Properties_Tail.v -- C60: solving again after some steps, with the horizon shortened by them, gives the rest of the plan. *)
From Coq Require Import Permutation.
From Verif Require Import Base Eigen Spec Preview SpecApi PreviewProofs AutoSpan AutoSpanProofs Constraints ConstraintProofs
  SpecConstraints ConstraintMeaning Checkers Costs SpecCosts CostProofs CostMeaning Properties_Costs Controller Registry SpecController Assembly
  Results Properties_Assembly Properties_Results SpecProtocol Protocol Properties_Protocol SpecEndToEnd SpanData Properties_Registry
  EndToEnd EndToEndQP EndToEndRows EndToEndMain Convex ExactSolver Properties_EndToEnd Determined Properties_Problem StateExt
  Solvers SpecSolvers SolverProofs Existence Properties_Solvers SpecMeaning Meaning Properties_Meaning SpecTail Tail.

Section Rest.
Variables (n m K N : nat) (h1 h2 : list op) (w1 w2 : world) (p1 p2 : nat) (e1 e2 : senv) (b2 : bool) (v1 v2 : world).
Hypotheses (K1 : 1 <= K) (P1 : posed n m (K + N) h1 w1 p1 e1 true v1) (P2 : posed n m N h2 w2 p2 e2 b2 v2) (X1 : exact_solver e1).
Hypotheses (SS : same_system (wps v1 p1) (wps v2 p2)) (XP : is_part (K * n) (m_traj (ctl v1)) (x0 (wps v2 p2))).
Hypotheses (SC : same_constraints h1 (spC (ctl w1)) h2 (spC (ctl w2))) (SK : same_costs h1 (spCost (ctl w1)) h2 (spCost (ctl w2))).
Notation q1 := (wps v1 p1). Notation q2 := (wps v2 p2).
Notation U1 := (vget (m_ctrl (ctl v1))). Notation xa := (vget (x0 q1)). Notation xb := (vget (x0 q2)).

Lemma re_ready : ready q1 /\ ready q2 /\ xDim q1 = n /\ uDim q1 = m /\ nrUStep q1 = K + N /\ nrUStep q2 = N.
Proof using P1 P2.
  destruct (po_ready _ _ _ _ _ _ _ _ _ P1) as [R1 [D1 _]]. destruct (po_ready _ _ _ _ _ _ _ _ _ P2) as [R2 [D2 _]].
  destruct D1 as [A1 [B1 [C1 _]]]. destruct D2 as [A2 [B2 [C2 _]]].
  unfold dps in *. cbn [xDim uDim nrUStep] in *. split; [exact R1|]. split; [exact R2|]. repeat split; assumption.
Qed.
Lemma re_hk : nrUStep q1 = K + nrUStep q2.
Proof using P1 P2. destruct re_ready as [_ [_ [_ [_ [A B]]]]]. rewrite A, B. reflexivity. Qed.
(** the second system starts where the plan is after K steps *)
Lemma re_start W : (forall j, j < K * m -> W j = U1 j) -> forall i, i < n -> state_of q1 xa W K i = xb i.
Proof using P1 P2 X1 SS XP K1.
  intros HW i Hi. destruct re_ready as [R1 [R2 [EX [EU [E1 E2]]]]]. destruct XP as [_ XV].
  destruct (po_optimal _ _ _ _ _ _ _ _ P1 X1) as [[T1 [_ TV]] _].
  assert (HX : vsize (x0 q2) = n) by (rewrite (rd_x0 _ R2), <- (proj1 SS); exact EX).
  rewrite XV by lia. rewrite <- EX. rewrite (TV K i) by lia.
  apply (state_head q1 q2 K R1 R2 SS re_hk); [|lia|lia]. intros j Hj. rewrite EU in Hj. apply HW. exact Hj.
Qed.
Lemma re_con d i j : In i (spC (ctl w1)) -> In j (spC (ctl w2)) -> con_data_of h1 i = con_data_of h2 j -> con_data_of h1 i = Some d -> stepwise q1 d.
Proof using P1 P2 SS K1.
  intros Hi Hj E Ed. destruct re_ready as [R1 [R2 [EX [EU [E1 E2]]]]].
  destruct (po_con _ _ _ _ _ _ _ _ _ P1 i Hi) as [d1 [F1 V1]]. destruct (po_con _ _ _ _ _ _ _ _ _ P2 j Hj) as [d2 [F2 V2]].
  rewrite Ed in F1. injection F1 as <-. rewrite <- E, Ed in F2. injection F2 as <-.
  apply (both_stepwise q1 q2 K R1 R2 SS re_hk); [exact K1|exact V1|exact V2].
Qed.
(** the controls of the first problem that begin as planned *)
Section Begin.
Variable W : nat -> Qc.
Hypothesis HW : forall j, j < K * m -> W j = U1 j.
Lemma re_imposes d i : In i (spC (ctl w1)) -> con_data_of h1 i = Some d -> (imposes q1 d xa W <-> imposes q2 d xb (from (K * m) W)).
Proof using P1 P2 X1 SS XP K1 SC HW.
  intros Hi Ed. destruct re_ready as [R1 [R2 [EX [EU [E1 E2]]]]]. destruct (proj1 SC i Hi) as [j [Hj Ej]].
  pose proof (re_con d i j Hi Hj Ej Ed) as S. rewrite (imposes_from q1 q2 K R1 R2 SS re_hk d xa W S). rewrite EU.
  assert (EQ : imposes q2 d (state_of q1 xa W K) (from (K * m) W) <-> imposes q2 d xb (from (K * m) W)).
  { apply imposes_ext; [exact R2| |reflexivity]. intros l Hl. apply re_start; [exact HW|]. rewrite <- EX, (proj1 SS). exact Hl. }
  rewrite EQ. split; [tauto|]. intro H. split; [|exact H]. intros k Hk.
  destruct (po_optimal _ _ _ _ _ _ _ _ P1 X1) as [_ [[A1 _] _]]. specialize (A1 i d Hi Ed).
  apply (imposes_from q1 q2 K R1 R2 SS re_hk d xa U1 S) in A1 as [A1 _].
  apply (at_step_head q1 q2 K R1 R2 SS re_hk xa U1 W); [|exact Hk|apply A1; exact Hk]. intros l Hl. rewrite EU in Hl. symmetry. apply HW. exact Hl.
Qed.
Lemma re_admissible : admissible h1 w1 q1 W <-> admissible h2 w2 q2 (from (K * m) W).
Proof using P1 P2 X1 SS XP K1 SC HW.
  destruct re_ready as [R1 [R2 [EX [EU [E1 E2]]]]]. pose proof SC as [SC1 SC2].
  assert (B : spB (ctl w1) = [] <-> spB (ctl w2) = []).
  { rewrite (po_bound _ _ _ _ _ _ _ _ _ P1), (po_bound _ _ _ _ _ _ _ _ _ P2). split; intros H i d Hi Ed.
    - destruct (SC2 i Hi) as [j [Hj E]]. apply (H j d Hj). rewrite E. exact Ed.
    - destruct (SC1 i Hi) as [j [Hj E]]. apply (H j d Hj). rewrite <- E. exact Ed. }
  assert (G : all_imposed q1 h1 (spC (ctl w1)) W <-> all_imposed q2 h2 (spC (ctl w2)) (from (K * m) W)).
  { split; intros H i d Hi Ed.
    - destruct (SC2 i Hi) as [j [Hj E]]. rewrite <- E in Ed. apply (re_imposes d j Hj Ed). apply (H j d Hj Ed).
    - destruct (SC1 i Hi) as [j [Hj E]]. apply (re_imposes d i Hi Ed). rewrite E in Ed. apply (H j d Hj Ed). }
  unfold admissible. rewrite B, G. apply and_iff_compat_l.
  rewrite (representable_from q1 q2 K R1 R2 SS re_hk), EU. split; [intros H HB; apply H; exact HB|].
  intros H HB. split; [|apply H; exact HB]. destruct (po_optimal _ _ _ _ _ _ _ _ P1 X1) as [_ [[_ A1] _]]. apply B in HB.
  specialize (A1 HB). apply (representable_from q1 q2 K R1 R2 SS re_hk) in A1 as [A1 _]. rewrite EU in A1.
  intros j Hj. rewrite HW by exact Hj. apply A1. exact Hj.
Qed.
(** the cost of the beginning *)
Definition begin_cost : Qc :=
  (lsum (spCost (ctl w1)) (fun i => match cost_data_of h1 i with Some d => sum K (cost_at q1 d (weights_of h1 i) xa U1) | None => 0 end)
   + regularization (K * m) U1)%Qc.
Lemma re_cost : full_cost h1 w1 q1 W = (begin_cost + full_cost h2 w2 q2 (from (K * m) W))%Qc.
Proof using P1 P2 X1 SS XP K1 SK HW.
  destruct re_ready as [R1 [R2 [EX [EU [E1 E2]]]]].
  assert (T2 : total_cost q2 h2 (spCost (ctl w2)) (from (K * m) W) =
    lsum (spCost (ctl w1)) (fun i => match cost_data_of h1 i with Some d => cost_value q2 d (weights_of h1 i) xb (from (K * m) W) | None => 0%Qc end)).
  { set (g := fun a : option cost_data * vec Qc => match fst a with Some d => cost_value q2 d (snd a) xb (from (K * m) W) | None => 0%Qc end).
    unfold total_cost. rewrite (lsum_map (spCost (ctl w1)) _ g (fun i => (cost_data_of h1 i, weights_of h1 i))) by reflexivity.
    rewrite (lsum_map (spCost (ctl w2)) _ g (fun i => (cost_data_of h2 i, weights_of h2 i))) by reflexivity. symmetry. apply fold_perm. exact SK. }
  assert (T1 : total_cost q1 h1 (spCost (ctl w1)) W =
    (lsum (spCost (ctl w1)) (fun i => match cost_data_of h1 i with Some d => sum K (cost_at q1 d (weights_of h1 i) xa U1) | None => 0 end)
     + total_cost q2 h2 (spCost (ctl w2)) (from (K * m) W))%Qc).
  { rewrite T2, <- lsum_add. unfold total_cost. apply lsum_ext. intros i Hi. destruct (cost_data_of h1 i) as [d|] eqn:Ed; [|ring].
    assert (F2 : exists j, In j (spCost (ctl w2)) /\ cost_data_of h2 j = Some d).
    { assert (I1 : In (cost_data_of h1 i, weights_of h1 i) (map (fun i => (cost_data_of h2 i, weights_of h2 i)) (spCost (ctl w2)))).
      { apply (Permutation_in _ SK). apply (in_map (fun i => (cost_data_of h1 i, weights_of h1 i))). exact Hi. }
      apply in_map_iff in I1 as [j [Ej Hj]]. exists j. split; [exact Hj|]. rewrite <- Ed. exact (f_equal fst Ej). }
    destruct F2 as [j [Hj Ej]].
    destruct (po_cost _ _ _ _ _ _ _ _ _ P1 i Hi) as [d1 [D1 [C1 _]]]. rewrite Ed in D1. injection D1 as <-.
    destruct (po_cost _ _ _ _ _ _ _ _ _ P2 j Hj) as [d2 [D2 [C2 _]]]. rewrite Ej in D2. injection D2 as <-.
    assert (S : stepwise_cost q1 d) by (apply (both_stepwise_cost q1 q2 K R1 R2 SS re_hk); [exact K1|exact C1|exact C2]).
    rewrite (cost_from q1 q2 K R1 R2 SS re_hk d (weights_of h1 i) xa W S), EU. f_equal.
    - apply sum_ext. intros k Hk. apply (cost_head q1 q2 K R1 R2 SS re_hk); [|exact S|exact Hk]. intros l Hl. rewrite EU in Hl. apply HW. exact Hl.
    - apply cost_value_ext_x; [exact R2| |reflexivity]. intros l Hl. apply re_start; [exact HW|]. rewrite <- EX, (proj1 SS). exact Hl. }
  unfold full_cost, begin_cost. rewrite T1, (regularization_from q1 q2 K R1 R2 SS re_hk), EU.
  assert (RH : regularization (K * m) W = regularization (K * m) U1) by (unfold regularization; do 2 f_equal; apply sum_ext; intros j Hj; rewrite HW by exact Hj; reflexivity).
  rewrite RH. ring.
Qed.
End Begin.
End Rest.

(** follow a computed plan for K steps, then solve from the state it leads to with the horizon shortened by K, the same
    system, constraints (any order, any objects) and costs: the control and the trajectory computed are the rest of the plan *)
Theorem C60_rest_of_plan : forall n m K N h1 w1 p1 e1 v1 h2 w2 p2 e2 v2, 1 <= K ->
  posed n m (K + N) h1 w1 p1 e1 true v1 -> posed n m N h2 w2 p2 e2 true v2 -> exact_solver e1 -> exact_solver e2 -> nonneg_weights h1 ->
  same_system (wps v1 p1) (wps v2 p2) -> is_part (K * n) (m_traj (ctl v1)) (x0 (wps v2 p2)) ->
  same_constraints h1 (spC (ctl w1)) h2 (spC (ctl w2)) -> same_costs h1 (spCost (ctl w1)) h2 (spCost (ctl w2)) ->
  is_rest (K * m) (m_ctrl (ctl v1)) (m_ctrl (ctl v2)) /\ is_rest (K * n) (m_traj (ctl v1)) (m_traj (ctl v2)).
Proof.
  intros n m K N h1 w1 p1 e1 v1 h2 w2 p2 e2 v2 K1 P1 P2 X1 X2 NW SS XP SC SK.
  destruct (re_ready _ _ _ _ _ _ _ _ _ _ _ _ _ _ _ P1 P2) as [R1 [R2 [EX [EU [E1 E2]]]]].
  destruct (po_optimal _ _ _ _ _ _ _ _ P1 X1) as [[T1 [S1 V1]] [A1 [O1 Q1]]]. destruct (po_optimal _ _ _ _ _ _ _ _ P2 X2) as [[T2 [S2 V2]] [A2 [O2 _]]].
  pose proof (po_full _ _ _ _ _ _ _ _ _ P1) as F1. pose proof (po_full _ _ _ _ _ _ _ _ _ P2) as F2.
  set (U1 := vget (m_ctrl (ctl v1))) in *. set (U2 := vget (m_ctrl (ctl v2))) in *. set (W := glue (K * m) U1 U2).
  assert (HW : forall j, j < K * m -> W j = U1 j) by (intros j Hj; apply glue_low; exact Hj).
  assert (FW : forall j, j < fullUDim (wps v2 p2) -> from (K * m) W j = U2 j) by (intros j _; apply glue_high).
  assert (AE : admissible h2 w2 (wps v2 p2) (from (K * m) W)).
  { destruct A2 as [A2 B2]. split; [|intros HB j Hj; rewrite FW by exact Hj; apply B2; assumption].
    intros i d Hi Ed. apply (imposes_ext _ (vget (x0 (wps v2 p2))) (vget (x0 (wps v2 p2))) U2); [exact R2|reflexivity| |apply (A2 i d Hi Ed)].
    intros j Hj. symmetry. apply FW. exact Hj. }
  assert (CE : full_cost h2 w2 (wps v2 p2) (from (K * m) W) = full_cost h2 w2 (wps v2 p2) U2).
  { apply (value_ext (wps v2 p2) h2 (spCost (ctl w2)) (vget (x0 (wps v2 p2))) (vget (x0 (wps v2 p2)))); [exact R2|reflexivity|exact FW]. }
  assert (UU : forall j, j < m * (K + N) -> W j = U1 j).
  { intros j Hj. apply (Q1 NW); [| |rewrite F1; exact Hj].
    - apply (re_admissible n m K N h1 h2 w1 w2 p1 p2 e1 e2 true v1 v2 K1 P1 P2 X1 SS XP SC W HW). exact AE.
    - rewrite (re_cost n m K N h1 h2 w1 w2 p1 p2 e1 e2 true v1 v2 K1 P1 P2 X1 SS XP SK W HW), CE.
      fold U1. rewrite (re_cost n m K N h1 h2 w1 w2 p1 p2 e1 e2 true v1 v2 K1 P1 P2 X1 SS XP SK U1 (fun _ _ => eq_refl)).
      apply Qcplus_le_compat; [apply Qcle_refl|]. apply O2.
      apply (re_admissible n m K N h1 h2 w1 w2 p1 p2 e1 e2 true v1 v2 K1 P1 P2 X1 SS XP SC U1 (fun _ _ => eq_refl)). exact A1. }
  assert (CC : is_rest (K * m) (m_ctrl (ctl v1)) (m_ctrl (ctl v2))).
  { split; [rewrite S1, S2, F1, F2; lia|]. intros j Hj. rewrite S2, F2 in Hj. fold U1 U2. rewrite <- UU by nia. unfold W. rewrite glue_high. reflexivity. }
  split; [exact CC|].
  assert (EX2 : xDim (wps v2 p2) = n) by (rewrite <- (proj1 SS); exact EX).
  split; [rewrite T1, T2, (rd_fx _ R1), (rd_fx _ R2), (rd_nx _ R1), (rd_nx _ R2), EX, EX2, E1, E2; lia|].
  intros i Hi. rewrite T2, (rd_fx _ R2), (rd_nx _ R2), EX2, E2 in Hi. assert (Ln : 1 <= n) by (destruct n; lia).
  pose proof (Nat.div_mod i n ltac:(lia)) as DM. pose proof (Nat.mod_upper_bound i n ltac:(lia)) as MB.
  assert (DB : i / n < N + 1) by (apply Nat.div_lt_upper_bound; lia). set (k := i / n) in *. set (r := i mod n) in *.
  replace i with (k * n + r) by lia. replace (K * n + (k * n + r)) with ((K + k) * n + r) by lia. rewrite <- EX at 2. rewrite (V1 (K + k) r) by lia.
  rewrite <- EX2 at 1. rewrite (V2 k r) by lia. rewrite (state_from (wps v1 p1) (wps v2 p2) K R1 R2 SS (re_hk _ _ _ _ _ _ _ _ _ _ _ _ _ _ _ P1 P2)).
  symmetry. apply state_of_ext; [exact R2| | |lia|lia].
  - intros l Hl. apply (re_start n m K N h1 h2 w1 w2 p1 p2 e1 e2 true v1 v2 K1 P1 P2 X1 SS XP); [reflexivity|lia].
  - intros l Hl. rewrite EU. unfold from. destruct CC as [_ CC]. rewrite CC by (rewrite S2; exact Hl). reflexivity.
Qed.
Print Assumptions C60_rest_of_plan.
(** and this second solve succeeds (complete solver) *)
Theorem C60_rest_succeeds : forall n m K N h1 w1 p1 e1 v1 h2 w2 p2 e2 b2 v2, 1 <= K ->
  posed n m (K + N) h1 w1 p1 e1 true v1 -> posed n m N h2 w2 p2 e2 b2 v2 -> exact_solver e1 -> exact_solver e2 -> nonneg_weights h2 ->
  complete_for e2 (m_qp (ctl v2)) ->
  same_system (wps v1 p1) (wps v2 p2) -> is_part (K * n) (m_traj (ctl v1)) (x0 (wps v2 p2)) ->
  same_constraints h1 (spC (ctl w1)) h2 (spC (ctl w2)) -> b2 = true.
Proof.
  intros n m K N h1 w1 p1 e1 v1 h2 w2 p2 e2 b2 v2 K1 P1 P2 X1 X2 NW CM SS XP SC.
  destruct (po_optimal _ _ _ _ _ _ _ _ P1 X1) as [_ [A1 _]].
  pose proof P2 as [SF FP CA HO RE Ep NI EV FS BD So].
  assert (PD := C27_cost_matrix n m N h2 w2 p2 e2 b2 v2 SF FP NW RE Ep NI So). cbv zeta in PD. destruct PD as [_ [_ [_ [_ [_ PD]]]]].
  apply (C52_success_iff_feasible n m N h2 w2 p2 e2 b2 v2 SF FP HO RE Ep So PD X2 CM).
  exists (from (K * m) (vget (m_ctrl (ctl v1)))). apply (po_admissible _ _ _ _ _ _ _ _ _ P2).
  apply (re_admissible n m K N h1 h2 w1 w2 p1 p2 e1 e2 b2 v1 v2 K1 P1 P2 X1 SS XP SC _ (fun _ _ => eq_refl)). exact A1.
Qed.
Print Assumptions C60_rest_succeeds.

(** ** Example: x <= 2, the target 3 is out of reach; two steps from 0 (plan 1, 1), then one step from 1 *)
Definition ex60 (start : Z) (N : nat) : list op :=
  [OPs 0 (PSystem (mlit [[1]]%Z) (mlit [[1]]%Z) (vlit [0]%Z) (vlit [start]) (Z.of_nat N)); OConstruct j0 (CLMPCps 0) qempty;
   ONewCon (DTraj (mlit [[1]]%Z) (elit [fin 2]) true); ONewCost (DTargetC (mlit [[1]]%Z) (vlit [3]%Z)); OAddCost j0 0; OAddCon j0 0].
Definition cert60a : cert :=
  Cert [qz 1; qz 1] [] [qz 0; qz 0; (qz 1 - q1em6)%Qc] [] [(qz 1, [qz 1; qz 1]); (q1em6, [qz 1; qz 0]); (q1em6, [qz 0; qz 1])].
Definition cert60b : cert := Cert [qz 1] [] [qz 0; (qz 1 - q1em6)%Qc] [] [((qz 1 + q1em6)%Qc, [qz 1])].
Example C60_example : exists w1 v1 w2 v2,
  posed 1 1 (1 + 1) (ex60 0 2) w1 0 (env_certs [cert60a]) true v1 /\ posed 1 1 1 (ex60 1 1) w2 0 (env_certs [cert60b]) true v2 /\
  exact_solver (env_certs [cert60a]) /\ exact_solver (env_certs [cert60b]) /\ nonneg_weights (ex60 0 2) /\ nonneg_weights (ex60 1 1) /\
  complete_for (env_certs [cert60b]) (m_qp (ctl v2)) /\
  same_system (wps v1 0) (wps v2 0) /\ is_part (1 * 1) (m_traj (ctl v1)) (x0 (wps v2 0)) /\
  same_constraints (ex60 0 2) (spC (ctl w1)) (ex60 1 1) (spC (ctl w2)) /\ spC (ctl w1) = [0] /\
  same_costs (ex60 0 2) (spCost (ctl w1)) (ex60 1 1) (spCost (ctl w2)) /\ spCost (ctl w1) = [0] /\ vget (m_ctrl (ctl v2)) 0 = qz 1.
Proof.
  assert (SF : sizes_fit 1 1 (1 + 1)) by (repeat split; lia). assert (SF' : sizes_fit 1 1 1) by (repeat split; lia).
  destruct (posedb_ok 1 1 (1 + 1) (ex60 0 2) (env_certs [cert60a]) true SF ltac:(vm_compute; reflexivity)) as [w1 [v1 [R1 [S1 P1]]]].
  destruct (posedb_ok 1 1 1 (ex60 1 1) (env_certs [cert60b]) true SF' ltac:(vm_compute; reflexivity)) as [w2 [v2 [R2 [S2 P2]]]].
  assert (C : match run world0 (ex60 0 2), run world0 (ex60 1 1) with
    | Some a, Some b => (psA (wps a 0) = psA (wps b 0) /\ psB (wps a 0) = psB (wps b 0) /\ psd (wps a 0) = psd (wps b 0)) /\
        spC (ctl a) = [0] /\ spC (ctl b) = [0] /\ spCost (ctl a) = [0] /\ spCost (ctl b) = [0]
    | _, _ => False end) by (vm_compute; repeat split).
  assert (D : match run world0 (ex60 0 2), run world0 (ex60 1 1) with
    | Some a, Some b => match solve (env_certs [cert60a]) a, solve (env_certs [cert60b]) b with
        | Some (_, v), Some (_, v') => kkt_check (m_qp (ctl v')) cert60b && Nat.eqb (vsize (m_traj (ctl v))) 3 && Nat.eqb (vsize (x0 (wps v' 0))) 1 &&
            qeqb (vget (x0 (wps v' 0)) 0) (vget (m_traj (ctl v)) 1) && qeqb (vget (m_ctrl (ctl v')) 0) (qz 1)
        | _, _ => false end
    | _, _ => false end = true) by (vm_compute; reflexivity).
  rewrite R1, R2 in C, D. rewrite S1, S2 in D. destruct C as [[CA [CB Cd]] [C1 [C2 [K1 K2]]]].
  apply andb_prop in D as [D D5]. apply andb_prop in D as [D D4]. apply andb_prop in D as [D D3]. apply andb_prop in D as [D1 D2].
  apply Nat.eqb_eq in D2, D3. apply qeqb_ok in D4, D5.
  exists w1, v1, w2, v2. split; [exact P1|]. split; [exact P2|]. split; [apply env_certs_exact|]. split; [apply env_certs_exact|]. split; [no_weights|]. split; [no_weights|].
  split; [apply kkt_complete; exact D1|].
  destruct (po_ready _ _ _ _ _ _ _ _ _ P1) as [Rd1 [SD1 [[_ [A1 [Bb1 E1]]] X1]]]. destruct (po_ready _ _ _ _ _ _ _ _ _ P2) as [Rd2 [SD2 [[_ [A2 [Bb2 E2]]] X2]]].
  split; [destruct SD1 as [a1 [b1 _]]; destruct SD2 as [a2 [b2 _]]; split; [exact (eq_trans a1 (eq_sym a2))|]; split; [exact (eq_trans b1 (eq_sym b2))|]; repeat split; congruence|].
  split; [split; [rewrite D2, D3; lia|intros i Hi; rewrite D3 in Hi; destruct i as [|i]; [exact D4|lia]]|].
  split; [rewrite C1, C2; split; intros i [<-|[]]; exists 0; split; try (left; reflexivity); reflexivity|]. split; [exact C1|].
  split; [rewrite K1, K2; apply Permutation_refl|]. split; [exact K1|exact D5].
Qed.
