(** Properties_Meaning.v -- C53-C56: only the meaning of what is registered matters; adding constraints; how the control and
    the optimal cost depend on the initial state. *)
From Coq Require Import Permutation.
From Verif Require Import Base Eigen Spec Preview SpecApi PreviewProofs AutoSpan AutoSpanProofs Constraints ConstraintProofs
  SpecConstraints ConstraintMeaning Checkers Costs SpecCosts CostProofs CostMeaning Properties_Costs Controller Registry SpecController Assembly
  Results Properties_Assembly Properties_Results SpecProtocol Protocol Properties_Protocol SpecEndToEnd SpanData Properties_Registry
  EndToEnd EndToEndQP EndToEndRows EndToEndMain Convex ExactSolver Properties_EndToEnd Determined Properties_Problem StateExt
  Solvers SpecSolvers SolverProofs Existence Properties_Solvers SpecMeaning Meaning.

(** ** C53: two histories that describe the same problem lead to the same control *)

(** whatever the objects, their classes, their order, the systems: the same admissible controls and the same cost up to a
    constant give the same control() *)
Theorem C53_only_meaning_matters : forall n1 n2 m N h1 w1 p1 e1 v1 h2 w2 p2 e2 v2 c,
  posed n1 m N h1 w1 p1 e1 true v1 -> posed n2 m N h2 w2 p2 e2 true v2 -> exact_solver e1 -> exact_solver e2 -> nonneg_weights h1 ->
  (forall V, admissible h1 w1 (wps v1 p1) V <-> admissible h2 w2 (wps v2 p2) V) ->
  (forall V, admissible h1 w1 (wps v1 p1) V -> full_cost h1 w1 (wps v1 p1) V = (full_cost h2 w2 (wps v2 p2) V + c)%Qc) ->
  vsize (m_ctrl (ctl v1)) = m * N /\ vsize (m_ctrl (ctl v2)) = m * N /\
  forall i, i < m * N -> vget (m_ctrl (ctl v2)) i = vget (m_ctrl (ctl v1)) i.
Proof.
  intros n1 n2 m N h1 w1 p1 e1 v1 h2 w2 p2 e2 v2 c P1 P2 X1 X2 NW AD CO.
  destruct (po_optimal _ _ _ _ _ _ _ _ P1 X1) as [[_ [T1 _]] [A1 [O1 U1]]]. destruct (po_optimal _ _ _ _ _ _ _ _ P2 X2) as [[_ [T2 _]] [A2 [O2 _]]].
  pose proof (po_full _ _ _ _ _ _ _ _ _ P1) as F1. pose proof (po_full _ _ _ _ _ _ _ _ _ P2) as F2.
  split; [congruence|]. split; [congruence|].
  intros i Hi. apply (U1 NW); [apply AD; exact A2| |rewrite F1; exact Hi].
  rewrite (CO _ A1), (CO _ (proj2 (AD _) A2)). apply Qcplus_le_compat; [|apply Qcle_refl]. exact (O2 _ (proj1 (AD _) A1)).
Qed.
Print Assumptions C53_only_meaning_matters.

Lemma lsum_map l (f : nat -> Qc) (g : option cost_data * vec Qc -> Qc) (k : nat -> option cost_data * vec Qc) :
  (forall i, f i = g (k i)) -> lsum l f = fold_right (fun a s => (g a + s)%Qc) 0%Qc (map k l).
Proof. intro H. induction l as [|x r IH]; cbn; [reflexivity|]. rewrite IH, H. reflexivity. Qed.
Lemma fold_perm (g : option cost_data * vec Qc -> Qc) a b : Permutation a b ->
  fold_right (fun a s => (g a + s)%Qc) 0%Qc a = fold_right (fun a s => (g a + s)%Qc) 0%Qc b.
Proof. induction 1; cbn; [reflexivity|rewrite IHPermutation; reflexivity|ring|congruence]. Qed.
Lemma same_trajectory n m N h1 w1 p1 e1 v1 h2 w2 p2 e2 v2 :
  posed n m N h1 w1 p1 e1 true v1 -> posed n m N h2 w2 p2 e2 true v2 -> exact_solver e1 -> exact_solver e2 ->
  same_model (wps v1 p1) (wps v2 p2) -> veq (x0 (wps v1 p1)) (x0 (wps v2 p2)) ->
  (forall i, i < m * N -> vget (m_ctrl (ctl v2)) i = vget (m_ctrl (ctl v1)) i) -> veq (m_traj (ctl v2)) (m_traj (ctl v1)).
Proof.
  intros P1 P2 X1 X2 SM VX HC.
  destruct (po_optimal _ _ _ _ _ _ _ _ P1 X1) as [[T1 [_ R1]] _]. destruct (po_optimal _ _ _ _ _ _ _ _ P2 X2) as [[T2 [_ R2]] _].
  destruct (po_ready _ _ _ _ _ _ _ _ _ P1) as [Rd [SD _]]. pose proof SM as [[X [Y [Nu [Nx [FX FU]]]]] [HA [HB Hd]]].
  split; [congruence|]. intros i Hi. rewrite T2, <- FX, (rd_fx _ Rd), (rd_nx _ Rd) in Hi.
  assert (Px : 0 < xDim (wps v1 p1)) by (destruct (xDim (wps v1 p1)); lia).
  pose proof (Nat.div_mod i (xDim (wps v1 p1)) ltac:(lia)) as E. pose proof (Nat.mod_upper_bound i (xDim (wps v1 p1)) ltac:(lia)) as M.
  assert (K : i / xDim (wps v1 p1) <= nrUStep (wps v1 p1)) by (assert (i / xDim (wps v1 p1) < nrUStep (wps v1 p1) + 1) by (apply Nat.div_lt_upper_bound; lia); lia).
  set (k := i / xDim (wps v1 p1)) in *. set (r := i mod xDim (wps v1 p1)) in *. replace i with (k * xDim (wps v1 p1) + r) by lia.
  rewrite (R1 k r) by assumption. rewrite X in M |- *. rewrite (R2 k r) by (rewrite <- ?Nu; assumption).
  unfold state_of. rewrite <- X, <- Y, <- HA, <- HB, <- Hd. symmetry. apply (state_of_ext (wps v1 p1)); [exact Rd| | |exact K|rewrite X; exact M].
  - intros j Hj. apply VX. rewrite (rd_x0 _ Rd). exact Hj.
  - intros j Hj. symmetry. apply HC. rewrite <- (po_full _ _ _ _ _ _ _ _ _ P1). exact Hj.
Qed.

(** the constraints in any order, through any objects, once or several times; the costs in any order: the same control and
    the same trajectory *)
Theorem C53_order_irrelevant : forall n m N h1 w1 p1 e1 v1 h2 w2 p2 e2 v2,
  posed n m N h1 w1 p1 e1 true v1 -> posed n m N h2 w2 p2 e2 true v2 -> exact_solver e1 -> exact_solver e2 -> nonneg_weights h1 ->
  same_model (wps v1 p1) (wps v2 p2) -> veq (x0 (wps v1 p1)) (x0 (wps v2 p2)) ->
  same_constraints h1 (spC (ctl w1)) h2 (spC (ctl w2)) -> same_costs h1 (spCost (ctl w1)) h2 (spCost (ctl w2)) ->
  veq (m_ctrl (ctl v2)) (m_ctrl (ctl v1)) /\ veq (m_traj (ctl v2)) (m_traj (ctl v1)).
Proof.
  intros n m N h1 w1 p1 e1 v1 h2 w2 p2 e2 v2 P1 P2 X1 X2 NW SM VX [SC1 SC2] SK.
  destruct (po_ready _ _ _ _ _ _ _ _ _ P1) as [Rd _]. pose proof SM as [SD _]. assert (FU : fullUDim (wps v2 p2) = fullUDim (wps v1 p1)) by (symmetry; apply SD).
  assert (HX : forall j, j < xDim (wps v1 p1) -> vget (x0 (wps v1 p1)) j = vget (x0 (wps v2 p2)) j) by (intros j Hj; apply VX; rewrite (rd_x0 _ Rd); exact Hj).
  assert (IM : forall d V, imposes (wps v1 p1) d (vget (x0 (wps v1 p1))) V <-> imposes (wps v2 p2) d (vget (x0 (wps v2 p2))) V).
  { intros d V. rewrite <- (imposes_model _ _ _ _ _ SM). apply imposes_ext; [exact Rd|exact HX|reflexivity]. }
  assert (B : spB (ctl w1) = [] <-> spB (ctl w2) = []).
  { rewrite (po_bound _ _ _ _ _ _ _ _ _ P1), (po_bound _ _ _ _ _ _ _ _ _ P2). split; intros H i d Hi Ed.
    - destruct (SC2 i Hi) as [j [Hj E]]. apply (H j d Hj). rewrite E. exact Ed.
    - destruct (SC1 i Hi) as [j [Hj E]]. apply (H j d Hj). rewrite <- E. exact Ed. }
  assert (AD : forall V, admissible h1 w1 (wps v1 p1) V <-> admissible h2 w2 (wps v2 p2) V).
  { intro V. unfold admissible. rewrite B, FU. apply and_iff_compat_r. split; intros H i d Hi Ed.
    - apply IM. destruct (SC2 i Hi) as [j [Hj E]]. apply (H j d Hj). rewrite E. exact Ed.
    - apply IM. destruct (SC1 i Hi) as [j [Hj E]]. apply (H j d Hj). rewrite <- E. exact Ed. }
  destruct (C53_only_meaning_matters n n m N h1 w1 p1 e1 v1 h2 w2 p2 e2 v2 0%Qc P1 P2 X1 X2 NW AD) as [S1 [S2 HC]].
  { intros V _. unfold full_cost. rewrite FU.
    assert (T : total_cost (wps v1 p1) h1 (spCost (ctl w1)) V = total_cost (wps v2 p2) h2 (spCost (ctl w2)) V); [|rewrite T; ring].
    unfold total_cost.
    set (g := fun a : option cost_data * vec Qc => match fst a with Some d => cost_value (wps v1 p1) d (snd a) (vget (x0 (wps v1 p1))) V | None => 0%Qc end).
    rewrite (lsum_map (spCost (ctl w1)) _ g (fun i => (cost_data_of h1 i, weights_of h1 i))) by reflexivity.
    rewrite (lsum_map (spCost (ctl w2)) _ g (fun i => (cost_data_of h2 i, weights_of h2 i))).
    - apply fold_perm. exact SK.
    - intro i. unfold g. cbn [fst snd]. destruct (cost_data_of h2 i) as [d|]; [|reflexivity]. rewrite <- (cost_value_model _ _ _ _ _ _ SM).
      symmetry. apply cost_value_ext_x; [exact Rd|exact HX|reflexivity]. }
  split; [split; [congruence|intros i Hi; apply HC; congruence]|].
  exact (same_trajectory n m N h1 w1 p1 e1 v1 h2 w2 p2 e2 v2 P1 P2 X1 X2 SM VX HC).
Qed.
Print Assumptions C53_order_irrelevant.

(** *** Different ways of writing the same constraint *)
Lemma cmp_split q e : cmp false q e <-> cmp true q e /\ cmp true (- q)%Qc (ext_opp e).
Proof.
  cbn. unfold q_eq_ext. destruct e; cbn; split; try (intro H; discriminate H); try (intros [H1 H2]; contradiction).
  - intro H. injection H as ->. split; apply Qcle_refl.
  - intros [H1 H2]. f_equal. apply Qcle_antisym; [|exact H1]. qc_lra.
Qed.
Lemma apply_opposite n M v i : apply n (at_ (opposite M)) v i = (- apply n (at_ M) v i)%Qc.
Proof. unfold apply. cbn. rewrite <- sum_opp. apply sum_ext. intros. ring. Qed.
Lemma neg_add (a b : Qc) : (- a + - b = - (a + b))%Qc. Proof. ring. Qed.
(** an equality is two opposite inequalities *)
Theorem C53_equality_is_two_inequalities : forall ps E G f x U,
  (means ps (DTraj E f false) x U <-> means ps (DTraj E f true) x U /\ means ps (DTraj (opposite E) (eopposite f) true) x U) /\
  (means ps (DCtrl G f false) x U <-> means ps (DCtrl G f true) x U /\ means ps (DCtrl (opposite G) (eopposite f) true) x U) /\
  (means ps (DMixed E G f false) x U <-> means ps (DMixed E G f true) x U /\ means ps (DMixed (opposite E) (opposite G) (eopposite f) true) x U).
Proof.
  intros ps E G f x U. cbn [means]. unfold traj_means, ctrl_means, mixed_means. cbn [rows cols opposite eopposite vget].
  split; [|split]; match goal with |- context [if ?b then _ else _] => destruct b end;
    (split; [intro H; split; intros; [|rewrite ?apply_opposite, ?neg_add]; apply cmp_split; apply H; assumption|
      intros [H1 H2]; intros; apply cmp_split; split; [apply H1; assumption|
        first [specialize (H2 k i ltac:(assumption) ltac:(assumption))|specialize (H2 i ltac:(assumption))]; rewrite ?apply_opposite, ?neg_add in H2; exact H2]]).
Qed.
Print Assumptions C53_equality_is_two_inequalities.

Lemma apply_ident n v i : i < n -> apply n (at_ (mident n n)) v i = v i.
Proof.
  intro Hi. unfold apply. rewrite (sum_ext n _ (fun j => if Nat.eqb j i then v j else 0)%Qc).
  - apply (sum_delta n i (fun j => v j)). exact Hi.
  - intros j Hj. cbn. rewrite (Nat.eqb_sym j i). destruct (Nat.eqb i j); ring.
Qed.
Lemma le_opp e q : ext_le_q e q <-> q_le_ext (- q)%Qc (ext_opp e).
Proof. destruct e; cbn; try tauto. split; intro; qc_lra. Qed.
(** bounds are inequalities with the identity matrix; in particular the documented trajectory bounds, which
    TrajectoryBoundConstraint does not impose (C10), can be imposed by two TrajectoryConstraints *)
Theorem C53_bounds_are_inequalities : forall ps lower upper x U,
  (* per step *)
  (vsize lower = xDim ps ->
    (means ps (DTrajB lower upper) x U <->
     means ps (DTraj (mident (xDim ps) (xDim ps)) upper true) x U /\ means ps (DTraj (opposite (mident (xDim ps) (xDim ps))) (eopposite lower) true) x U)) /\
  (vsize lower = uDim ps ->
    (means ps (DCtrlB lower upper) x U <->
     means ps (DCtrl (mident (uDim ps) (uDim ps)) upper true) x U /\ means ps (DCtrl (opposite (mident (uDim ps) (uDim ps))) (eopposite lower) true) x U)) /\
  (* over the horizon *)
  (vsize lower = fullXDim ps -> fullXDim ps <> xDim ps ->
    (means ps (DTrajB lower upper) x U <->
     means ps (DTraj (mident (fullXDim ps) (fullXDim ps)) upper true) x U /\ means ps (DTraj (opposite (mident (fullXDim ps) (fullXDim ps))) (eopposite lower) true) x U)) /\
  (vsize lower = fullUDim ps -> fullUDim ps <> uDim ps ->
    (means ps (DCtrlB lower upper) x U <->
     means ps (DCtrl (mident (fullUDim ps) (fullUDim ps)) upper true) x U /\ means ps (DCtrl (opposite (mident (fullUDim ps) (fullUDim ps))) (eopposite lower) true) x U)).
Proof.
  intros ps lower upper x U. cbn [means]. unfold traj_between, ctrl_between, traj_means, ctrl_means, within_bounds.
  assert (C1 : forall a, cols (mident a a) = a) by reflexivity. assert (C2 : forall a, cols (opposite (mident a a)) = a) by reflexivity.
  assert (R1 : forall a, rows (mident a a) = a) by reflexivity. assert (R2 : forall a, rows (opposite (mident a a)) = a) by reflexivity.
  rewrite !C1, !C2, !R1, !R2. cbn [eopposite vget].
  split; [|split; [|split]].
  - intros ->. rewrite Nat.eqb_refl. split.
    + intro H. split; intros k i Hk Hi; destruct (H k Hk i Hi) as [A B]; [rewrite apply_ident by exact Hi; exact B|rewrite apply_opposite, apply_ident by exact Hi; apply le_opp; exact A].
    + intros [H1 H2] k Hk i Hi. specialize (H1 k i Hk Hi). specialize (H2 k i Hk Hi). rewrite apply_ident in H1 by exact Hi. rewrite apply_opposite, apply_ident in H2 by exact Hi. split; [apply le_opp; exact H2|exact H1].
  - intros ->. rewrite Nat.eqb_refl. split.
    + intro H. split; intros k i Hk Hi; destruct (H k Hk i Hi) as [A B]; [rewrite apply_ident by exact Hi; exact B|rewrite apply_opposite, apply_ident by exact Hi; apply le_opp; exact A].
    + intros [H1 H2] k Hk i Hi. specialize (H1 k i Hk Hi). specialize (H2 k i Hk Hi). rewrite apply_ident in H1 by exact Hi. rewrite apply_opposite, apply_ident in H2 by exact Hi. split; [apply le_opp; exact H2|exact H1].
  - intros -> Ne. apply Nat.eqb_neq in Ne. rewrite Ne. split.
    + intro H. split; intros i Hi; destruct (H i Hi) as [A B]; [rewrite apply_ident by exact Hi; exact B|rewrite apply_opposite, apply_ident by exact Hi; apply le_opp; exact A].
    + intros [H1 H2] i Hi. specialize (H1 i Hi). specialize (H2 i Hi). rewrite apply_ident in H1 by exact Hi. rewrite apply_opposite, apply_ident in H2 by exact Hi. split; [apply le_opp; exact H2|exact H1].
  - intros -> Ne. apply Nat.eqb_neq in Ne. rewrite Ne. split.
    + intro H. split; intros i Hi; destruct (H i Hi) as [A B]; [rewrite apply_ident by exact Hi; exact B|rewrite apply_opposite, apply_ident by exact Hi; apply le_opp; exact A].
    + intros [H1 H2] i Hi. specialize (H1 i Hi). specialize (H2 i Hi). rewrite apply_ident in H1 by exact Hi. rewrite apply_opposite, apply_ident in H2 by exact Hi. split; [apply le_opp; exact H2|exact H1].
Qed.
Print Assumptions C53_bounds_are_inequalities.
(** the weights act linearly: one cost with weights v + w is two costs with weights v and w, weights 0 no cost at all *)
Theorem C53_weights_linear : forall ps d v w x U,
  cost_value ps d (Vec (vsize v) (fun i => vget v i + vget w i)%Qc) x U = (cost_value ps d v x U + cost_value ps d w x U)%Qc /\
  (forall a, cost_value ps d (Vec (vsize w) (fun i => a * vget w i)%Qc) x U = (a * cost_value ps d w x U)%Qc).
Proof.
  intros ps d v w x U. split; [|intro a]; rewrite !cost_value_resid; rewrite <- ?sum_add, <- ?sum_scal_l; apply sum_ext; intros k _; unfold wsq; cbn [vget].
  - rewrite <- Qcmult_plus_distr_r, <- sum_add. f_equal. apply sum_ext. intros. ring.
  - rewrite <- !sum_scal_l. apply sum_ext. intros. ring.
Qed.
Print Assumptions C53_weights_linear.

(** ** C54: adding constraints *)
(** a controller with more constraints and the same costs never reports a better optimum; a constraint that the control
    computed without it already satisfies changes nothing *)
Theorem C54_more_constraints : forall n m N h1 w1 p1 e1 v1 h2 w2 p2 e2 v2,
  posed n m N h1 w1 p1 e1 true v1 -> posed n m N h2 w2 p2 e2 true v2 -> exact_solver e1 -> exact_solver e2 ->
  (forall V, admissible h2 w2 (wps v2 p2) V -> admissible h1 w1 (wps v1 p1) V) ->
  (forall V, full_cost h1 w1 (wps v1 p1) V = full_cost h2 w2 (wps v2 p2) V) ->
  (full_cost h1 w1 (wps v1 p1) (vget (m_ctrl (ctl v1))) <= full_cost h2 w2 (wps v2 p2) (vget (m_ctrl (ctl v2))))%Qc /\
  (nonneg_weights h1 -> admissible h2 w2 (wps v2 p2) (vget (m_ctrl (ctl v1))) ->
     forall i, i < m * N -> vget (m_ctrl (ctl v2)) i = vget (m_ctrl (ctl v1)) i).
Proof.
  intros n m N h1 w1 p1 e1 v1 h2 w2 p2 e2 v2 P1 P2 X1 X2 SUB CO.
  destruct (po_optimal _ _ _ _ _ _ _ _ P1 X1) as [[_ [T1 _]] [A1 [O1 U1]]]. destruct (po_optimal _ _ _ _ _ _ _ _ P2 X2) as [[_ [T2 _]] [A2 [O2 _]]].
  split; [rewrite <- CO; apply O1, SUB, A2|]. intros NW A i Hi.
  apply (U1 NW); [apply SUB; exact A2| |rewrite (po_full _ _ _ _ _ _ _ _ _ P1); exact Hi]. rewrite !CO. apply O2. exact A.
Qed.
Print Assumptions C54_more_constraints.
(** and if solve succeeds with the additional constraints, it succeeds without them (complete solver) *)
Theorem C54_success_monotone : forall n m N h1 w1 p1 e1 b1 v1 h2 w2 p2 e2 b2 v2,
  posed n m N h1 w1 p1 e1 b1 v1 -> posed n m N h2 w2 p2 e2 b2 v2 -> exact_solver e1 -> exact_solver e2 ->
  nonneg_weights h1 -> complete_for e1 (m_qp (ctl v1)) ->
  (forall V, admissible h2 w2 (wps v2 p2) V -> admissible h1 w1 (wps v1 p1) V) ->
  b2 = true -> b1 = true.
Proof.
  intros n m N h1 w1 p1 e1 b1 v1 h2 w2 p2 e2 b2 v2 P1 P2 X1 X2 NW CM SUB ->.
  destruct (po_optimal _ _ _ _ _ _ _ _ P2 X2) as [_ [A2 _]].
  pose proof P1 as [SF FP CA HO RE Ep NI EV FS BD So].
  assert (PD := C27_cost_matrix n m N h1 w1 p1 e1 b1 v1 SF FP NW RE Ep NI So). cbv zeta in PD. destruct PD as [_ [_ [_ [_ [_ PD]]]]].
  apply (C52_success_iff_feasible n m N h1 w1 p1 e1 b1 v1 SF FP HO RE Ep So PD X1 CM).
  exists (vget (m_ctrl (ctl v2))). apply (po_admissible _ _ _ _ _ _ _ _ _ P1). apply SUB. exact A2.
Qed.
Print Assumptions C54_success_monotone.

(** ** C56: convexity in the initial state *)
(** the optimal cost is a convex function of the initial state *)
Theorem C56_optimal_cost_convex : forall n m N h1 w1 p1 e1 v1 h2 w2 p2 e2 v2 h3 w3 p3 e3 v3 t,
  posed n m N h1 w1 p1 e1 true v1 -> posed n m N h2 w2 p2 e2 true v2 -> posed n m N h3 w3 p3 e3 true v3 ->
  exact_solver e1 -> exact_solver e2 -> exact_solver e3 -> nonneg_weights h1 ->
  (* the same system and the same registered data, three initial states *)
  same_model (wps v1 p1) (wps v2 p2) -> same_model (wps v1 p1) (wps v3 p3) ->
  same_registered h1 w1 h2 w2 -> same_registered h1 w1 h3 w3 ->
  (0 <= t)%Qc -> (t <= 1)%Qc ->
  (forall i, i < n -> vget (x0 (wps v3 p3)) i = mix t (vget (x0 (wps v1 p1))) (vget (x0 (wps v2 p2))) i) ->
  (full_cost h3 w3 (wps v3 p3) (vget (m_ctrl (ctl v3))) <=
   t * full_cost h1 w1 (wps v1 p1) (vget (m_ctrl (ctl v1))) + (1 - t) * full_cost h2 w2 (wps v2 p2) (vget (m_ctrl (ctl v2))))%Qc.
Proof.
  intros n m N h1 w1 p1 e1 v1 h2 w2 p2 e2 v2 h3 w3 p3 e3 v3 t P1 P2 P3 X1 X2 X3 NW M2 M3 R2 R3 T0 T1 HX.
  destruct (po_optimal _ _ _ _ _ _ _ _ P1 X1) as [_ [A1 _]]. destruct (po_optimal _ _ _ _ _ _ _ _ P2 X2) as [_ [A2 _]].
  destruct (po_optimal _ _ _ _ _ _ _ _ P3 X3) as [_ [A3 [O3 _]]].
  destruct (po_ready _ _ _ _ _ _ _ _ _ P1) as [Rd [SD _]]. assert (XD : xDim (wps v1 p1) = n) by (transitivity (xDim (dps n m N)); [apply SD|reflexivity]).
  pose proof (same_admissible _ _ _ _ _ _ _ _ _ _ _ _ _ _ _ P1 P2 M2 R2) as AD2. pose proof (same_admissible _ _ _ _ _ _ _ _ _ _ _ _ _ _ _ P1 P3 M3 R3) as AD3.
  pose proof (same_value _ _ _ _ _ _ _ _ _ _ _ _ _ _ _ P1 P2 M2 R2) as VL2. pose proof (same_value _ _ _ _ _ _ _ _ _ _ _ _ _ _ _ P1 P3 M3 R3) as VL3.
  pose proof (same_value _ _ _ _ _ _ _ _ _ _ _ _ _ _ _ P1 P1 (same_model_refl _) (same_registered_refl _ _ _ _ _ _ _ _ _ P1)) as VL1.
  set (W := mix t (vget (m_ctrl (ctl v1))) (vget (m_ctrl (ctl v2)))).
  assert (AW : admissible h3 w3 (wps v3 p3) W).
  { apply AD3. apply AD2 in A2. destruct A1 as [A1 B1], A2 as [A2 B2]. split; [|intro Q; apply representable_mix; auto].
    intros i d Hi Ed. apply (imposes_ext _ _ (mix t (vget (x0 (wps v1 p1))) (vget (x0 (wps v2 p2)))) W W d Rd); [intros j Hj; apply HX; lia|reflexivity|].
    apply imposes_mix; [right; auto|apply (A1 i d Hi Ed)|apply (A2 i d Hi Ed)]. }
  apply (Qcle_trans _ _ _ (O3 W AW)). rewrite VL3, VL2, VL1.
  rewrite (value_ext _ h1 (spCost (ctl w1)) (vget (x0 (wps v3 p3))) (mix t (vget (x0 (wps v1 p1))) (vget (x0 (wps v2 p2)))) W W Rd ltac:(intros; apply HX; lia) ltac:(reflexivity)).
  apply value_convex; [apply (po_weights _ _ _ _ _ _ _ _ _ P1 NW)|assumption|assumption].
Qed.
Print Assumptions C56_optimal_cost_convex.
(** the initial states from which solve succeeds form a convex set (complete solver) *)
Theorem C56_success_set_convex : forall n m N h1 w1 p1 e1 v1 h2 w2 p2 e2 v2 h3 w3 p3 e3 b3 v3 t,
  posed n m N h1 w1 p1 e1 true v1 -> posed n m N h2 w2 p2 e2 true v2 -> posed n m N h3 w3 p3 e3 b3 v3 ->
  exact_solver e1 -> exact_solver e2 -> exact_solver e3 -> complete_for e3 (m_qp (ctl v3)) -> nonneg_weights h3 ->
  same_model (wps v1 p1) (wps v2 p2) -> same_model (wps v1 p1) (wps v3 p3) ->
  same_registered h1 w1 h2 w2 -> same_registered h1 w1 h3 w3 ->
  (0 <= t)%Qc -> (t <= 1)%Qc ->
  (forall i, i < n -> vget (x0 (wps v3 p3)) i = mix t (vget (x0 (wps v1 p1))) (vget (x0 (wps v2 p2))) i) ->
  b3 = true.
Proof.
  intros n m N h1 w1 p1 e1 v1 h2 w2 p2 e2 v2 h3 w3 p3 e3 b3 v3 t P1 P2 P3 X1 X2 X3 CM NW M2 M3 R2 R3 T0 T1 HX.
  destruct (po_optimal _ _ _ _ _ _ _ _ P1 X1) as [_ [A1 _]]. destruct (po_optimal _ _ _ _ _ _ _ _ P2 X2) as [_ [A2 _]].
  destruct (po_ready _ _ _ _ _ _ _ _ _ P1) as [Rd [SD _]]. assert (XD : xDim (wps v1 p1) = n) by (transitivity (xDim (dps n m N)); [apply SD|reflexivity]).
  pose proof (same_admissible _ _ _ _ _ _ _ _ _ _ _ _ _ _ _ P1 P2 M2 R2) as AD2. pose proof (same_admissible _ _ _ _ _ _ _ _ _ _ _ _ _ _ _ P1 P3 M3 R3) as AD3.
  set (W := mix t (vget (m_ctrl (ctl v1))) (vget (m_ctrl (ctl v2)))).
  assert (AW : admissible h3 w3 (wps v3 p3) W).
  { apply AD3. apply AD2 in A2. destruct A1 as [A1 B1], A2 as [A2 B2]. split; [|intro Q; apply representable_mix; auto].
    intros i d Hi Ed. apply (imposes_ext _ _ (mix t (vget (x0 (wps v1 p1))) (vget (x0 (wps v2 p2)))) W W d Rd); [intros j Hj; apply HX; lia|reflexivity|].
    apply imposes_mix; [right; auto|apply (A1 i d Hi Ed)|apply (A2 i d Hi Ed)]. }
  pose proof P3 as [SF FP CA HO RE Ep NI EV FS BD So].
  assert (PD := C27_cost_matrix n m N h3 w3 p3 e3 b3 v3 SF FP NW RE Ep NI So). cbv zeta in PD. destruct PD as [_ [_ [_ [_ [_ PD]]]]].
  apply (C52_success_iff_feasible n m N h3 w3 p3 e3 b3 v3 SF FP HO RE Ep So PD X3 CM).
  exists W. apply (po_admissible _ _ _ _ _ _ _ _ _ P3). exact AW.
Qed.
Print Assumptions C56_success_set_convex.

(** ** C55: with equality constraints only, the control is an affine function of the initial state *)
Theorem C55_control_affine : forall n m N h1 w1 p1 e1 v1 h2 w2 p2 e2 v2 h3 w3 p3 e3 v3 t,
  posed n m N h1 w1 p1 e1 true v1 -> posed n m N h2 w2 p2 e2 true v2 -> posed n m N h3 w3 p3 e3 true v3 ->
  exact_solver e1 -> exact_solver e2 -> exact_solver e3 -> nonneg_weights h1 ->
  (* the same system and the same registered data, three initial states on a line; [t] is any number *)
  same_model (wps v1 p1) (wps v2 p2) -> same_model (wps v1 p1) (wps v3 p3) ->
  same_registered h1 w1 h2 w2 -> same_registered h1 w1 h3 w3 ->
  (forall i, i < n -> vget (x0 (wps v3 p3)) i = mix t (vget (x0 (wps v1 p1))) (vget (x0 (wps v2 p2))) i) ->
  (* the registered constraints are equalities; the controls do not reach the largest double *)
  (forall i d, In i (spC (ctl w1)) -> con_data_of h1 i = Some d -> is_equality d) ->
  strictly_representable (m * N) (vget (m_ctrl (ctl v1))) -> strictly_representable (m * N) (vget (m_ctrl (ctl v2))) ->
  strictly_representable (m * N) (vget (m_ctrl (ctl v3))) ->
  forall j, j < m * N -> vget (m_ctrl (ctl v3)) j = mix t (vget (m_ctrl (ctl v1))) (vget (m_ctrl (ctl v2))) j.
Proof.
  intros n m N h1 w1 p1 e1 v1 h2 w2 p2 e2 v2 h3 w3 p3 e3 v3 t P1 P2 P3 X1 X2 X3 NW M2 M3 R2 R3 HX EQ S1 S2 S3 j Hj.
  destruct (po_optimal _ _ _ _ _ _ _ _ P1 X1) as [_ [A1 [O1 _]]]. destruct (po_optimal _ _ _ _ _ _ _ _ P2 X2) as [_ [A2 [O2 _]]].
  destruct (po_optimal _ _ _ _ _ _ _ _ P3 X3) as [_ [A3 [O3 _]]].
  destruct (po_ready _ _ _ _ _ _ _ _ _ P1) as [Rd [SD _]]. assert (XD : xDim (wps v1 p1) = n) by (transitivity (xDim (dps n m N)); [apply SD|reflexivity]).
  pose proof (po_full _ _ _ _ _ _ _ _ _ P1) as FU.
  assert (K : forall h w p e v, posed n m N h w p e true v -> same_model (wps v1 p1) (wps v p) -> same_registered h1 w1 h w ->
    admissible h w (wps v p) (vget (m_ctrl (ctl v))) ->
    (forall V, admissible h w (wps v p) V -> (full_cost h w (wps v p) (vget (m_ctrl (ctl v))) <= full_cost h w (wps v p) V)%Qc) ->
    strictly_representable (m * N) (vget (m_ctrl (ctl v))) ->
    minimal (wps v1 p1) h1 (spC (ctl w1)) (spCost (ctl w1)) (vget (x0 (wps v p))) (vget (m_ctrl (ctl v)))).
  { intros h w p e v P M R A O S.
    pose proof (same_admissible _ _ _ _ _ _ _ _ _ _ _ _ _ _ _ P1 P M R) as AD. pose proof (same_value _ _ _ _ _ _ _ _ _ _ _ _ _ _ _ P1 P M R) as VL.
    apply interior_minimal; [exact Rd|exact EQ|apply (po_weights _ _ _ _ _ _ _ _ _ P1 NW)|rewrite FU; exact S|apply AD; exact A|].
    intros V AV RV. rewrite <- !VL. apply O. apply AD. split; [exact AV|intros _; exact RV]. }
  apply (minimal_affine (wps v1 p1) h1 (spC (ctl w1)) (spCost (ctl w1)) Rd EQ (po_weights _ _ _ _ _ _ _ _ _ P1 NW) t
    (vget (x0 (wps v1 p1))) (vget (x0 (wps v2 p2))) (vget (x0 (wps v3 p3)))).
  - rewrite XD. exact HX.
  - exact (K _ _ _ _ _ P1 (same_model_refl _) (same_registered_refl _ _ _ _ _ _ _ _ _ P1) A1 O1 S1).
  - exact (K _ _ _ _ _ P2 M2 R2 A2 O2 S2).
  - exact (K _ _ _ _ _ P3 M3 R3 A3 O3 S3).
  - rewrite FU. exact Hj.
Qed.
Print Assumptions C55_control_affine.

(** ** Concrete cases *)
(** the conditions of a posed problem, by computation, for a history without solve *)
Definition adds_cost (i : nat) (o : op) : bool := match o with OAddCost _ k => Nat.eqb k i | _ => false end.
Definition solves (o : op) : bool := match o with OSolve _ => true | _ => false end.
Definition evenb (d : con_data) : bool := match d with DTrajB lo up => Nat.eqb (vsize lo) (vsize up) | _ => true end.
Definition posedb (n m N : nat) (h : list op) (e : senv) (b : bool) : bool :=
  forallb (fun o => negb (solves o)) h && followsb n m N world0 h && callableb world0 h && honestb world0 h && forallb evenb (new_cons h) &&
  negb (stale world0 false h) &&
  match run world0 h with
  | Some w =>
      forallb (fun i => existsb (adds_cost i) h && Nat.eqb (cnt i (spCost (ctl w))) 1) (spCost (ctl w)) &&
      match m_ps (ctl w), m_is (ctl w), solve e w with Some 0, None, Some (b', w') => Bool.eqb b b' | _, _, _ => false end
  | None => false end.
Lemma posedb_ok n m N h e b : sizes_fit n m N -> posedb n m N h e b = true -> exists w w', run world0 h = Some w /\ solve e w = Some (b, w') /\ posed n m N h w 0 e b w'.
Proof.
  intros SF H. unfold posedb in H. apply andb_prop in H as [H R]. apply andb_prop in H as [H ST]. apply andb_prop in H as [H EV].
  apply andb_prop in H as [H HO]. apply andb_prop in H as [H CA]. apply andb_prop in H as [NS FP].
  destruct (run world0 h) as [w|] eqn:Er; [|discriminate R]. apply andb_prop in R as [FS R].
  destruct (m_ps (ctl w)) as [[|p]|] eqn:Ep; try discriminate R. destruct (m_is (ctl w)) eqn:Ei; [discriminate R|].
  destruct (solve e w) as [[b' w']|] eqn:So; [|discriminate R]. apply Bool.eqb_prop in R as <-.
  exists w, w'. split; [reflexivity|]. split; [exact So|]. rewrite forallb_forall in NS, EV, FS.
  assert (NO : forall e', ~ In (OSolve e') h) by (intros e' Hi; specialize (NS _ Hi); discriminate NS).
  split; try assumption.
  - apply followsb_ok; [intros e' Hi; destruct (NO e' Hi)|exact FP].
  - apply callableb_ok. exact CA.
  - apply honestb_ok. exact HO.
  - intros i _ lo up Hi. apply nth_error_In in Hi. specialize (EV _ Hi). apply Nat.eqb_eq. exact EV.
  - intros i d Hi _ _. specialize (FS i Hi). apply andb_prop in FS as [A C]. split; [|apply Nat.eqb_eq; exact C].
    apply existsb_exists in A as [o [Ho A]]. destruct o; try discriminate A. cbn in A. apply Nat.eqb_eq in A as ->.
    apply in_split in Ho as [l1 [l2 ->]]. exists l1, j, l2. split; [reflexivity|]. intros e' Hi'. apply (NO e'). apply in_or_app. right. right. exact Hi'.
  - right. apply negb_true_iff. exact ST.
Qed.
Lemma kkt_complete c q : kkt_check q c = true -> complete_for (env_certs [c]) q.
Proof.
  intros K k a b x WS _. unfold env_certs. cbn [s_qp pick]. rewrite K. destruct WS as [_ [_ [-> _]]]. rewrite Nat.eqb_refl. reflexivity.
Qed.

(** C53: the problem of [C36_example], written in another order, the first constraint twice through two objects *)
Definition ex53 : list op :=
  [ONewCost (DTargetC (mlit [[1]]%Z) (vlit [2]%Z)); ONewCon (DCtrlB (elit [fin (-3)]) (elit [fin 3; fin 3]));
   OPs 0 (PSystem (mlit [[1]]%Z) (mlit [[1]]%Z) (vlit [0]%Z) (vlit [0]%Z) 2); OConstruct j0 (CLMPCps 0) qempty;
   ONewCon (DTraj (mlit [[1]]%Z) (elit [fin 1]) true); ONewCon (DTraj (mlit [[1]]%Z) (elit [fin 1]) true); OSpanCon j0 0;
   ONewCost (DTrajC (mlit [[1]]%Z) (vlit [4]%Z)); OWeight 0 (qz 3);
   OAddCost j0 0; OAddCon j0 2; OAddCost j0 1; OAddCon j0 0; OAddCon j0 1].
Definition cert53 : cert :=
  Cert [qz 1; qz 0] [] [qz 0; (qz 3 - q1em6)%Qc; qz 6; qz 0; qz 0; qz 0] []
       [(qz 4, [qz 1; qz 1]); ((qz 1 + q1em6)%Qc, [qz 1]); (q1em6, [qz 0; qz 1])].
Example C53_example : exists w1 v1 w2 v2,
  posed 1 1 2 ex36 w1 0 (env_certs [cert36]) true v1 /\ posed 1 1 2 ex53 w2 0 (env_certs [cert53]) true v2 /\
  exact_solver (env_certs [cert36]) /\ exact_solver (env_certs [cert53]) /\ nonneg_weights ex36 /\
  same_model (wps v1 0) (wps v2 0) /\ veq (x0 (wps v1 0)) (x0 (wps v2 0)) /\
  same_constraints ex36 (spC (ctl w1)) ex53 (spC (ctl w2)) /\ same_costs ex36 (spCost (ctl w1)) ex53 (spCost (ctl w2)) /\
  spC (ctl w1) <> spC (ctl w2) /\ veq (m_ctrl (ctl v2)) (vlit [1; 0]%Z).
Proof.
  assert (SF : sizes_fit 1 1 2) by (repeat split; lia).
  destruct (posedb_ok 1 1 2 ex36 (env_certs [cert36]) true SF ltac:(vm_compute; reflexivity)) as [w1 [v1 [R1 [S1 P1]]]].
  destruct (posedb_ok 1 1 2 ex53 (env_certs [cert53]) true SF ltac:(vm_compute; reflexivity)) as [w2 [v2 [R2 [S2 P2]]]].
  assert (C : match run world0 ex36, run world0 ex53 with
    | Some a, Some b => psA (wps a 0) = psA (wps b 0) /\ psB (wps a 0) = psB (wps b 0) /\ psd (wps a 0) = psd (wps b 0) /\
        x0 (wps a 0) = x0 (wps b 0) /\ spC (ctl a) = [0; 1] /\ spC (ctl b) = [2; 0; 1] /\ spCost (ctl a) = [0; 1] /\ spCost (ctl b) = [0; 1]
    | _, _ => False end) by (vm_compute; repeat split).
  assert (D : match run world0 ex53 with Some a => match solve (env_certs [cert53]) a with
      Some (_, v) => forallb (fun xy => qeqb (fst xy) (snd xy)) (combine (vdump (m_ctrl (ctl v))) (map qz [1; 0]%Z)) | None => false end | None => false end = true) by (vm_compute; reflexivity).
  rewrite R1, R2 in C. rewrite R2, S2 in D. destruct C as [CA [CB [Cd [Cx [C1 [C2 [K1 K2]]]]]]].
  exists w1, v1, w2, v2. split; [exact P1|]. split; [exact P2|]. split; [apply env_certs_exact|]. split; [apply env_certs_exact|].
  split; [split; intros i x H; cbn in H; repeat (destruct H as [H|H]; [try discriminate H|]); try contradiction; injection H as _ <-; apply qleb_ok; reflexivity|].
  destruct (po_ready _ _ _ _ _ _ _ _ _ P1) as [Rd1 [SD1 [[_ [A1 [B1 E1]]] X1]]]. destruct (po_ready _ _ _ _ _ _ _ _ _ P2) as [Rd2 [SD2 [[_ [A2 [B2 E2]]] X2]]].
  split; [split; [apply (same_dims_trans _ (dps 1 1 2)); [exact SD1|apply same_dims_sym; exact SD2]|split; [|split]; congruence]|].
  split; [rewrite X1, X2, Cx; apply veq_refl|]. rewrite C1, C2, K1, K2. split.
  { split; intros i Hi; cbn in Hi; [destruct Hi as [<-|[<-|[]]]|destruct Hi as [<-|[<-|[<-|[]]]]].
    - exists 2. split; [left; reflexivity|reflexivity].
    - exists 0. split; [right; left; reflexivity|reflexivity].
    - exists 0. split; [left; reflexivity|reflexivity].
    - exists 1. split; [right; left; reflexivity|reflexivity].
    - exists 0. split; [left; reflexivity|reflexivity]. }
  split; [unfold same_costs; cbn; apply perm_swap|]. split; [discriminate|].
  pose proof (po_optimal _ _ _ _ _ _ _ _ P2 (env_certs_exact _)) as [[_ [T2 _]] _]. pose proof (po_full _ _ _ _ _ _ _ _ _ P2) as F2.
  assert (SZ : vsize (m_ctrl (ctl v2)) = 2) by (rewrite T2, F2; reflexivity).
  split; [exact SZ|]. unfold vdump in D. rewrite SZ in D. cbn in D. apply andb_prop in D as [D0 D]. apply andb_prop in D as [D1 _]. apply qeqb_ok in D0, D1.
  intros [|[|i]] Hi; [exact D0|exact D1|rewrite SZ in Hi; lia].
Qed.

(** C54, C56: one step, x <= 1, the target 2 is out of reach; from 0, from -2, and half-way; and without the constraint *)
Definition ex56 (start : Z) (constrained : bool) : list op :=
  [OPs 0 (PSystem (mlit [[1]]%Z) (mlit [[1]]%Z) (vlit [0]%Z) (vlit [start]) 1); OConstruct j0 (CLMPCps 0) qempty;
   ONewCon (DTraj (mlit [[1]]%Z) (elit [fin 1]) true); ONewCost (DTargetC (mlit [[1]]%Z) (vlit [2]%Z)); OAddCost j0 0]
  ++ if constrained then [OAddCon j0 0] else [].
Definition cert56 (u : Z) : cert := Cert [qz u] [] [qz 0; (qz 1 - q1em6 * qz u)%Qc] [] [((qz 1 + q1em6)%Qc, [qz 1])].
Definition cert56free : cert := Cert [(qz 2 / (qz 1 + q1em6))%Qc] [] [] [] [((qz 1 + q1em6)%Qc, [qz 1])].
Ltac no_weights := split; intros i x H; cbn in H; repeat (destruct H as [H|H]; [discriminate H|]); contradiction.
Example C54_example : exists w1 v1 w2 v2,
  posed 1 1 1 (ex56 0 false) w1 0 (env_certs [cert56free]) true v1 /\ posed 1 1 1 (ex56 0 true) w2 0 (env_certs [cert56 1]) true v2 /\
  exact_solver (env_certs [cert56free]) /\ exact_solver (env_certs [cert56 1]) /\ nonneg_weights (ex56 0 false) /\
  complete_for (env_certs [cert56free]) (m_qp (ctl v1)) /\
  (forall V, admissible (ex56 0 true) w2 (wps v2 0) V -> admissible (ex56 0 false) w1 (wps v1 0) V) /\
  (forall V, full_cost (ex56 0 false) w1 (wps v1 0) V = full_cost (ex56 0 true) w2 (wps v2 0) V) /\
  ~ admissible (ex56 0 true) w2 (wps v2 0) (vget (m_ctrl (ctl v1))).
Proof.
  assert (SF : sizes_fit 1 1 1) by (repeat split; lia).
  destruct (posedb_ok 1 1 1 (ex56 0 false) (env_certs [cert56free]) true SF ltac:(vm_compute; reflexivity)) as [w1 [v1 [R1 [S1 P1]]]].
  destruct (posedb_ok 1 1 1 (ex56 0 true) (env_certs [cert56 1]) true SF ltac:(vm_compute; reflexivity)) as [w2 [v2 [R2 [S2 P2]]]].
  assert (C : match run world0 (ex56 0 false), run world0 (ex56 0 true) with
    | Some a, Some b => psA (wps a 0) = psA (wps b 0) /\ psB (wps a 0) = psB (wps b 0) /\ psd (wps a 0) = psd (wps b 0) /\
        x0 (wps a 0) = x0 (wps b 0) /\ spC (ctl a) = [] /\ spC (ctl b) = [0] /\ spCost (ctl a) = [0] /\ spCost (ctl b) = [0] /\ spB (ctl a) = [] /\ spB (ctl b) = []
    | _, _ => False end) by (vm_compute; repeat split).
  assert (D : match run world0 (ex56 0 false), run world0 (ex56 0 true) with
    | Some a, Some b => match solve (env_certs [cert56free]) a, solve (env_certs [cert56 1]) b with
        | Some (_, v), Some (_, v') => let q := m_qp (ctl v') in kkt_check (m_qp (ctl v)) cert56free &&
            negb (rows_holdb true (rows (qAineq q)) (cols (qAineq q)) (at_ (qAineq q)) (vget (qbineq q)) (vget (m_ctrl (ctl v))))
        | _, _ => false end
    | _, _ => false end = true) by (vm_compute; reflexivity).
  rewrite R1, R2 in C, D. rewrite S1, S2 in D. cbv zeta in D. apply andb_prop in D as [D1 D2]. destruct C as [CA [CB [Cd [Cx [C1 [C2 [K1 [K2 [B1 B2]]]]]]]]].
  exists w1, v1, w2, v2. split; [exact P1|]. split; [exact P2|]. split; [apply env_certs_exact|]. split; [apply env_certs_exact|]. split; [no_weights|].
  split; [apply kkt_complete; exact D1|].
  destruct (po_ready _ _ _ _ _ _ _ _ _ P1) as [Rd1 [SD1 [[_ [A1 [Bb1 E1]]] X1]]]. destruct (po_ready _ _ _ _ _ _ _ _ _ P2) as [Rd2 [SD2 [[_ [A2 [Bb2 E2]]] X2]]].
  assert (SM : same_model (wps v1 0) (wps v2 0)) by (split; [apply (same_dims_trans _ (dps 1 1 1)); [exact SD1|apply same_dims_sym; exact SD2]|split; [|split]; congruence]).
  assert (FU : fullUDim (wps v1 0) = fullUDim (wps v2 0)) by apply SM.
  split; [intros V [_ H]; split; [rewrite C1; intros i d []|intros _; rewrite FU; apply H; exact B2]|].
  split.
  - intro V. unfold full_cost, total_cost. rewrite K1, K2, FU. f_equal. cbn [lsum fold_right map]. cbn [lsum]. change (cost_data_of (ex56 0 true) 0) with (cost_data_of (ex56 0 false) 0).
    change (weights_of (ex56 0 true) 0) with (weights_of (ex56 0 false) 0). destruct (cost_data_of (ex56 0 false) 0) as [d|]; [|reflexivity].
    rewrite (cost_value_model _ _ _ _ _ _ SM), X1, X2, Cx. reflexivity.
  - intro H. apply (po_admissible _ _ _ _ _ _ _ _ _ P2) in H. destruct H as [_ [H _]]. apply rows_holdb_ok in H. rewrite H in D2. discriminate D2.
Qed.

Definition mid_ok (h1 h2 h3 : list op) (t : Qc) (w1 w2 w3 v1 v2 v3 : world) : Prop :=
  same_model (wps v1 0) (wps v2 0) /\ same_model (wps v1 0) (wps v3 0) /\
  same_registered h1 w1 h2 w2 /\ same_registered h1 w1 h3 w3 /\
  (forall i, i < 1 -> vget (x0 (wps v3 0)) i = mix t (vget (x0 (wps v1 0))) (vget (x0 (wps v2 0))) i).
Example C56_example : exists w1 v1 w2 v2 w3 v3,
  posed 1 1 1 (ex56 0 true) w1 0 (env_certs [cert56 1]) true v1 /\ posed 1 1 1 (ex56 (-2) true) w2 0 (env_certs [cert56 3]) true v2 /\
  posed 1 1 1 (ex56 (-1) true) w3 0 (env_certs [cert56 2]) true v3 /\
  (forall cs, exact_solver (env_certs cs)) /\ nonneg_weights (ex56 0 true) /\ nonneg_weights (ex56 (-1) true) /\
  complete_for (env_certs [cert56 2]) (m_qp (ctl v3)) /\
  mid_ok (ex56 0 true) (ex56 (-2) true) (ex56 (-1) true) half w1 w2 w3 v1 v2 v3 /\ (0 <= half)%Qc /\ (half <= 1)%Qc /\
  veq (m_ctrl (ctl v3)) (vlit [2]%Z).
Proof.
  assert (SF : sizes_fit 1 1 1) by (repeat split; lia).
  destruct (posedb_ok 1 1 1 (ex56 0 true) (env_certs [cert56 1]) true SF ltac:(vm_compute; reflexivity)) as [w1 [v1 [R1 [S1 P1]]]].
  destruct (posedb_ok 1 1 1 (ex56 (-2) true) (env_certs [cert56 3]) true SF ltac:(vm_compute; reflexivity)) as [w2 [v2 [R2 [S2 P2]]]].
  destruct (posedb_ok 1 1 1 (ex56 (-1) true) (env_certs [cert56 2]) true SF ltac:(vm_compute; reflexivity)) as [w3 [v3 [R3 [S3 P3]]]].
  assert (C : match run world0 (ex56 0 true), run world0 (ex56 (-2) true), run world0 (ex56 (-1) true) with
    | Some a, Some b, Some c => (psA (wps a 0) = psA (wps b 0) /\ psB (wps a 0) = psB (wps b 0) /\ psd (wps a 0) = psd (wps b 0)) /\
        (psA (wps a 0) = psA (wps c 0) /\ psB (wps a 0) = psB (wps c 0) /\ psd (wps a 0) = psd (wps c 0)) /\
        (vget (x0 (wps a 0)) 0 = qz 0 /\ vget (x0 (wps b 0)) 0 = qz (-2) /\ vget (x0 (wps c 0)) 0 = qz (-1)) /\
        (spC (ctl a) = [0] /\ spC (ctl b) = [0] /\ spC (ctl c) = [0]) /\ (spCost (ctl a) = [0] /\ spCost (ctl b) = [0] /\ spCost (ctl c) = [0])
    | _, _, _ => False end) by (vm_compute; repeat split).
  assert (D : match run world0 (ex56 (-1) true) with Some a => match solve (env_certs [cert56 2]) a with
      Some (_, v) => kkt_check (m_qp (ctl v)) (cert56 2) && qeqb (vget (m_ctrl (ctl v)) 0) (qz 2) | None => false end | None => false end = true) by (vm_compute; reflexivity).
  rewrite R1, R2, R3 in C. rewrite R3, S3 in D. apply andb_prop in D as [D1 D2]. destruct C as [[CA [CB Cd]] [[CA' [CB' Cd']] [[Z1 [Z2 Z3]] [[C1 [C2 C3]] [K1 [K2 K3]]]]]].
  exists w1, v1, w2, v2, w3, v3. split; [exact P1|]. split; [exact P2|]. split; [exact P3|]. split; [intro; apply env_certs_exact|]. split; [no_weights|]. split; [no_weights|].
  split; [apply kkt_complete; exact D1|].
  destruct (po_ready _ _ _ _ _ _ _ _ _ P1) as [Rd1 [SD1 [[_ [A1 [Bb1 E1]]] X1]]]. destruct (po_ready _ _ _ _ _ _ _ _ _ P2) as [Rd2 [SD2 [[_ [A2 [Bb2 E2]]] X2]]].
  destruct (po_ready _ _ _ _ _ _ _ _ _ P3) as [Rd3 [SD3 [[_ [A3 [Bb3 E3]]] X3]]].
  split.
  { split; [split; [apply (same_dims_trans _ (dps 1 1 1)); [exact SD1|apply same_dims_sym; exact SD2]|split; [|split]; congruence]|].
    split; [split; [apply (same_dims_trans _ (dps 1 1 1)); [exact SD1|apply same_dims_sym; exact SD3]|split; [|split]; congruence]|].
    split; [|split].
    - split; [congruence|]. rewrite C1, K1, K2. split; [|split; [reflexivity|]]; intros i [<-|[]]; split; try apply con_alike_refl; try apply cost_alike_refl; try apply veq_refl.
      split; intros lo up H; discriminate H.
    - split; [congruence|]. rewrite C1, K1, K3. split; [|split; [reflexivity|]]; intros i [<-|[]]; split; try apply con_alike_refl; try apply cost_alike_refl; try apply veq_refl.
      split; intros lo up H; discriminate H.
    - intros [|i] Hi; [|lia]. unfold mix. rewrite X1, X2, X3, Z1, Z2, Z3. apply Qc_is_canon. reflexivity. }
  split; [apply qleb_ok; reflexivity|]. split; [apply qleb_ok; reflexivity|].
  pose proof (po_optimal _ _ _ _ _ _ _ _ P3 (env_certs_exact _)) as [[_ [T3 _]] _]. pose proof (po_full _ _ _ _ _ _ _ _ _ P3) as F3.
  assert (SZ : vsize (m_ctrl (ctl v3)) = 1) by (rewrite T3, F3; reflexivity). split; [exact SZ|].
  apply qeqb_ok in D2. intros [|i] Hi; [exact D2|rewrite SZ in Hi; lia].
Qed.

(** C55: two steps, u_0 - u_1 = 1, from 0, 1 and 3 = -2 * 0 + 3 * 1 *)
Definition ex55 (start : Z) : list op :=
  [OPs 0 (PSystem (mlit [[1]]%Z) (mlit [[1]]%Z) (vlit [0]%Z) (vlit [start]) 2); OConstruct j0 (CLMPCps 0) qempty;
   ONewCon (DCtrl (mlit [[1; -1]]%Z) (elit [fin 1]) false); ONewCost (DTargetC (mlit [[1]]%Z) (vlit [-2]%Z)); OAddCost j0 0; OAddCon j0 0].
Definition cert55 (start : Z) : cert :=
  let u := ((- (qz 2 * (qz start + qz 3)) - q1em6) / (qz 4 + qz 2 * q1em6))%Qc in
  Cert [(u + qz 1)%Qc; u] [(- (q1em6 * half))%Qc] [] [] [(qz 1, [qz 1; qz 1]); (q1em6, [qz 1; qz 0]); (q1em6, [qz 0; qz 1])].
Example C55_example : exists w1 v1 w2 v2 w3 v3,
  posed 1 1 2 (ex55 0) w1 0 (env_certs [cert55 0]) true v1 /\ posed 1 1 2 (ex55 1) w2 0 (env_certs [cert55 1]) true v2 /\
  posed 1 1 2 (ex55 3) w3 0 (env_certs [cert55 3]) true v3 /\
  (forall cs, exact_solver (env_certs cs)) /\ nonneg_weights (ex55 0) /\
  mid_ok (ex55 0) (ex55 1) (ex55 3) (qz (-2)) w1 w2 w3 v1 v2 v3 /\
  (forall i d, In i (spC (ctl w1)) -> con_data_of (ex55 0) i = Some d -> is_equality d) /\ spC (ctl w1) = [0] /\
  strictly_representable (1 * 2) (vget (m_ctrl (ctl v1))) /\ strictly_representable (1 * 2) (vget (m_ctrl (ctl v2))) /\
  strictly_representable (1 * 2) (vget (m_ctrl (ctl v3))) /\ vget (m_ctrl (ctl v1)) 0 <> vget (m_ctrl (ctl v2)) 0.
Proof.
  assert (SF : sizes_fit 1 1 2) by (repeat split; lia).
  destruct (posedb_ok 1 1 2 (ex55 0) (env_certs [cert55 0]) true SF ltac:(vm_compute; reflexivity)) as [w1 [v1 [R1 [S1 P1]]]].
  destruct (posedb_ok 1 1 2 (ex55 1) (env_certs [cert55 1]) true SF ltac:(vm_compute; reflexivity)) as [w2 [v2 [R2 [S2 P2]]]].
  destruct (posedb_ok 1 1 2 (ex55 3) (env_certs [cert55 3]) true SF ltac:(vm_compute; reflexivity)) as [w3 [v3 [R3 [S3 P3]]]].
  assert (C : match run world0 (ex55 0), run world0 (ex55 1), run world0 (ex55 3) with
    | Some a, Some b, Some c => (psA (wps a 0) = psA (wps b 0) /\ psB (wps a 0) = psB (wps b 0) /\ psd (wps a 0) = psd (wps b 0)) /\
        (psA (wps a 0) = psA (wps c 0) /\ psB (wps a 0) = psB (wps c 0) /\ psd (wps a 0) = psd (wps c 0)) /\
        (vget (x0 (wps a 0)) 0 = qz 0 /\ vget (x0 (wps b 0)) 0 = qz 1 /\ vget (x0 (wps c 0)) 0 = qz 3) /\
        (spC (ctl a) = [0] /\ spC (ctl b) = [0] /\ spC (ctl c) = [0]) /\ (spCost (ctl a) = [0] /\ spCost (ctl b) = [0] /\ spCost (ctl c) = [0])
    | _, _, _ => False end) by (vm_compute; repeat split).
  assert (D : forall (b : bool), (let inside := fun v => allb 2 (fun i => negb (qleb (vget (m_ctrl (ctl v)) i) (- DBL_MAX)%Qc) && negb (qleb DBL_MAX (vget (m_ctrl (ctl v)) i))) in
    match run world0 (ex55 0), run world0 (ex55 1), run world0 (ex55 3) with
    | Some a, Some b, Some c => match solve (env_certs [cert55 0]) a, solve (env_certs [cert55 1]) b, solve (env_certs [cert55 3]) c with
        | Some (_, x), Some (_, y), Some (_, z) => inside x && inside y && inside z && negb (qeqb (vget (m_ctrl (ctl x)) 0) (vget (m_ctrl (ctl y)) 0))
        | _, _, _ => false end
    | _, _, _ => false end) = true) by (intros _; vm_compute; reflexivity).
  specialize (D true). rewrite R1, R2, R3 in C, D. rewrite S1, S2, S3 in D. cbv zeta in D. apply andb_prop in D as [D D4]. apply andb_prop in D as [D D3]. apply andb_prop in D as [D1 D2].
  destruct C as [[CA [CB Cd]] [[CA' [CB' Cd']] [[Z1 [Z2 Z3]] [[C1 [C2 C3]] [K1 [K2 K3]]]]]].
  exists w1, v1, w2, v2, w3, v3. split; [exact P1|]. split; [exact P2|]. split; [exact P3|]. split; [intro; apply env_certs_exact|]. split; [no_weights|].
  destruct (po_ready _ _ _ _ _ _ _ _ _ P1) as [Rd1 [SD1 [[_ [A1 [Bb1 E1]]] X1]]]. destruct (po_ready _ _ _ _ _ _ _ _ _ P2) as [Rd2 [SD2 [[_ [A2 [Bb2 E2]]] X2]]].
  destruct (po_ready _ _ _ _ _ _ _ _ _ P3) as [Rd3 [SD3 [[_ [A3 [Bb3 E3]]] X3]]].
  split.
  { split; [split; [apply (same_dims_trans _ (dps 1 1 2)); [exact SD1|apply same_dims_sym; exact SD2]|split; [|split]; congruence]|].
    split; [split; [apply (same_dims_trans _ (dps 1 1 2)); [exact SD1|apply same_dims_sym; exact SD3]|split; [|split]; congruence]|].
    split; [|split].
    - split; [congruence|]. rewrite C1, K1, K2. split; [|split; [reflexivity|]]; intros i [<-|[]]; split; try apply con_alike_refl; try apply cost_alike_refl; try apply veq_refl.
      split; intros lo up H; discriminate H.
    - split; [congruence|]. rewrite C1, K1, K3. split; [|split; [reflexivity|]]; intros i [<-|[]]; split; try apply con_alike_refl; try apply cost_alike_refl; try apply veq_refl.
      split; intros lo up H; discriminate H.
    - intros [|i] Hi; [|lia]. unfold mix. rewrite X1, X2, X3, Z1, Z2, Z3. apply Qc_is_canon. reflexivity. }
  split; [rewrite C1; intros i d [<-|[]] H; injection H as <-; reflexivity|]. split; [exact C1|].
  assert (IN : forall v, allb 2 (fun i => negb (qleb (vget (m_ctrl (ctl v)) i) (- DBL_MAX)%Qc) && negb (qleb DBL_MAX (vget (m_ctrl (ctl v)) i))) = true ->
    strictly_representable (1 * 2) (vget (m_ctrl (ctl v)))).
  { intros v H i Hi. rewrite allb_ok in H. specialize (H i Hi). apply andb_prop in H as [H1 H2]. apply negb_true_iff in H1, H2.
    split; (match goal with |- (?a < ?b)%Qc => destruct (Qclt_le_dec a b) as [Q|Q]; [exact Q|exfalso]; apply qleb_ok in Q; congruence end). }
  split; [apply IN; exact D1|]. split; [apply IN; exact D2|]. split; [apply IN; exact D3|].
  intro Q. apply qeqb_ok in Q. rewrite Q in D4. discriminate D4.
Qed.
