(** Choice.v -- the objective of InitialStateLMPC, in terms of the cheapest controls from each state. *)
From Verif Require Import Base Eigen Spec Preview SpecApi PreviewProofs AutoSpan AutoSpanProofs Constraints ConstraintProofs
  SpecConstraints ConstraintMeaning Checkers Costs SpecCosts CostProofs CostMeaning Properties_Costs Controller Registry SpecController Assembly
  Results Properties_Assembly Properties_Results SpecProtocol Protocol Properties_Protocol SpecEndToEnd SpanData Properties_Registry
  EndToEnd EndToEndQP EndToEndRows EndToEndMain Convex ExactSolver Properties_EndToEnd Determined Properties_Problem StateExt
  InitialState Properties_InitialState Solvers SpecSolvers SolverProofs Existence Properties_Solvers SpecMeaning Meaning Properties_Meaning
  SpecBridge Properties_Bridge.

Lemma obj_odd n Q c U : (half * (objective n Q c U - objective n Q c (fun i => - U i)))%Qc = sum n (fun j => c j * U j)%Qc.
Proof.
  unfold objective. rewrite (sum_ext n (fun i => - U i * apply n Q (fun i => - U i) i)%Qc (fun i => U i * apply n Q U i)%Qc).
  - rewrite (sum_ext n (fun i => c i * - U i)%Qc (fun i => - (c i * U i))%Qc) by (intros; ring). rewrite sum_opp.
    set (s := sum n (fun i => c i * U i)%Qc). transitivity (half * s + half * s)%Qc; [ring|apply half_split].
  - intros i _. unfold apply. rewrite (sum_ext n (fun j => Q i j * - U j)%Qc (fun j => - (Q i j * U j))%Qc) by (intros; ring). rewrite sum_opp. ring.
Qed.

Section Gap.
Variables (k : nat) (K : nat -> nat -> Qc).
Hypothesis SY : symmetric k K.
Lemma bilin_sym a b : sum k (fun i => a i * apply k K b i)%Qc = sum k (fun i => b i * apply k K a i)%Qc.
Proof using SY.
  unfold apply. rewrite (sum_ext k _ (fun i => sum k (fun j => a i * K i j * b j)%Qc)) by (intros; rewrite <- sum_scal_l; apply sum_ext; intros; ring).
  rewrite sum_swap. apply sum_ext. intros j Hj. rewrite <- sum_scal_l. apply sum_ext. intros i Hi. rewrite (SY i j Hi Hj). ring.
Qed.
(** at a stationary point [b] of the objective, the gap is quadratic *)
Lemma objective_gap g b V : (forall i, i < k -> apply k K b i = (- g i)%Qc) ->
  (objective k K g V - objective k K g b)%Qc = (half * quad k K (fun i => V i - b i))%Qc.
Proof using SY.
  intro HB. unfold objective, quad.
  assert (AS : forall i, apply k K (fun j => V j - b j)%Qc i = (apply k K V i - apply k K b i)%Qc)
    by (intro i; unfold apply; rewrite <- sum_sub; apply sum_ext; intros; ring).
  rewrite (sum_ext k (fun i => (V i - b i) * apply k K (fun j => V j - b j) i)%Qc
    (fun i => V i * apply k K V i - V i * apply k K b i - (b i * apply k K V i - b i * apply k K b i))%Qc) by (intros; rewrite AS; ring).
  rewrite !sum_sub. rewrite (bilin_sym b V).
  rewrite (sum_ext k (fun i => V i * apply k K b i)%Qc (fun i => - (g i * V i))%Qc) by (intros; rewrite HB by assumption; ring).
  rewrite (sum_ext k (fun i => b i * apply k K b i)%Qc (fun i => - (g i * b i))%Qc) by (intros; rewrite HB by assumption; ring).
  rewrite !sum_opp. set (v := sum k (fun i => V i * apply k K V i)%Qc). set (a := sum k (fun i => g i * V i)%Qc). set (c := sum k (fun i => g i * b i)%Qc).
  pose proof (half_split a) as Ha. pose proof (half_split c) as Hc.
  transitivity (half * v + a - c + half * c)%Qc; [ring|]. transitivity (half * v + (half * a + half * a) - (half * c + half * c) + half * c)%Qc; [rewrite Ha, Hc; reflexivity|ring].
Qed.
(** 1/2 (V+z)'K(V+z) + f'V, where b = b0 - z, K b0 = -f *)
Lemma shifted_quad f b0 b z V : (forall i, i < k -> apply k K b0 i = (- f i)%Qc) -> (forall i, i < k -> b i = (b0 i - z i)%Qc) ->
  (half * quad k K (fun i => V i + z i) + sum k (fun i => f i * V i))%Qc
  = (half * quad k K (fun i => V i - b i) + sum k (fun i => f i * (b i - b0 i)) + (half * quad k K b0 + sum k (fun i => f i * b0 i)))%Qc.
Proof using SY.
  intros H0 HB. unfold quad. set (D := fun i => (V i - b i)%Qc).
  assert (VZ : forall i, i < k -> (V i + z i)%Qc = (D i + b0 i)%Qc) by (intros i Hi; unfold D; rewrite HB by exact Hi; ring).
  assert (AS : forall i, apply k K (fun j => V j + z j)%Qc i = (apply k K D i + apply k K b0 i)%Qc).
  { intro i. unfold apply. rewrite <- sum_add. apply sum_ext. intros j Hj. rewrite VZ by exact Hj. ring. }
  rewrite (sum_ext k (fun i => (V i + z i) * apply k K (fun j => V j + z j) i)%Qc
    (fun i => D i * apply k K D i + D i * apply k K b0 i + (b0 i * apply k K D i + b0 i * apply k K b0 i))%Qc) by (intros; rewrite AS, VZ by assumption; ring).
  rewrite !sum_add, (bilin_sym b0 D).
  rewrite (sum_ext k (fun i => D i * apply k K b0 i)%Qc (fun i => - (f i * D i))%Qc) by (intros; rewrite H0 by assumption; ring). rewrite sum_opp.
  rewrite (sum_ext k (fun i => f i * V i)%Qc (fun i => f i * D i + (f i * (b i - b0 i) + f i * b0 i))%Qc) by (intros; unfold D; ring). rewrite !sum_add.
  set (d := sum k (fun i => D i * apply k K D i)%Qc). set (a := sum k (fun i => f i * D i)%Qc). set (c := sum k (fun i => b0 i * apply k K b0 i)%Qc).
  set (g := sum k (fun i => f i * (b i - b0 i))%Qc). set (h := sum k (fun i => f i * b0 i)%Qc). pose proof (half_split a) as Ha.
  change (sum k (fun i => (V i - b i) * apply k K D i)%Qc) with d.
  transitivity (half * d + half * c - (half * a + half * a) + a + g + h)%Qc; [ring|rewrite Ha; ring].
Qed.
End Gap.

Section Chosen.
Variables (n m N : nat) (h : list op) (w : world) (p : nat) (s : ist) (e : senv) (b : bool) (w' : world).
Hypothesis PF : posed_free n m N h w p s e b w'.
Hypothesis NW : nonneg_weights h.
Hypothesis RI : right_inverse e (m * N) (fun i j => at_ (qQ (m_qp (ctl w'))) (n + i) (n + j)).
Notation ps := (wps w' p).
Notation k := (m * N).
Notation q := (m_qp (ctl w')).
Notation cost := (cost_from h w ps).
Notation K := (fun i j => at_ (qQ q) (n + i) (n + j)).
Lemma total_ext y y' V V' : (forall i, i < n -> y i = y' i) -> (forall i, i < k -> V i = V' i) ->
  total_cost_from ps h (spCost (ctl w)) y V = total_cost_from ps h (spCost (ctl w)) y' V'.
Proof using PF.
  intros Hy HV. destruct (pf_ready _ _ _ _ _ _ _ _ _ _ PF) as [R _]. destruct (pf_dims _ _ _ _ _ _ _ _ _ _ PF) as [Dn Dk].
  unfold total_cost_from. apply lsum_ext. intros i Hi. destruct (cost_data_of h i) as [d|]; [|reflexivity].
  apply cost_value_ext_x; [exact R|rewrite Dn; exact Hy|rewrite Dk; exact HV].
Qed.
Lemma cost_ext y y' V V' : (forall i, i < n -> y i = y' i) -> (forall i, i < k -> V i = V' i) -> cost y V = cost y' V'.
Proof using PF.
  intros Hy HV. destruct (pf_dims _ _ _ _ _ _ _ _ _ _ PF) as [Dn Dk]. unfold cost_from. rewrite (total_ext y y' V V' Hy HV), Dk. f_equal.
  unfold regularization. do 2 f_equal. apply sum_ext. intros i Hi. rewrite HV by exact Hi. reflexivity.
Qed.
(** the QP of the solve: a cost of the initial state, the gap above the cheapest controls, the tilt, a constant *)
Lemma chosen_value : exists best d, best_response cost best /\
  (forall y V, (cost y V <= cost y (best y))%Qc -> forall i, i < k -> V i = best y i) /\
  (forall y V, qp_value q (cat n y V) = (start_cost n s y + (cost y V - cost y (best y)) + tilt cost best y + d)%Qc).
Proof using PF NW RI.
  pose proof (pf_solved _ _ _ _ _ _ _ _ _ _ PF) as S. destruct (pf_dims _ _ _ _ _ _ _ _ _ _ PF) as [Dn Dk].
  assert (H := PF). destruct H as [SF FP CA HO RE Ep Is EV FS BD So].
  destruct (is_square n m N h w p s e b w' S Is NW RI) as [R1 [R2 [R3 [SY [PD [E [P [IV [HE HT]]]]]]]]].
  destruct (is_cost_block n m N h w p s e b w' S Is NW) as [_ GE]. cbv zeta in *.
  assert (A := C28_assembly_initial_state h w p s e b w' RE Ep Is So). cbv zeta in A.
  destruct (si_dims n m N SF h w p s e b w' S Is) as [_ [_ [[_ [_ [Y0 _]]] _]]]. rewrite Dn, Dk in A. specialize (A Y0).
  destruct A as [_ [_ [_ [_ [_ [_ [_ [_ [_ [Hr _]]]]]]]]]].
  destruct (sd_ps _ _ _ _ _ _ _ _ _ S) as [_ [_ [D' _]]]. pose proof (fresh_steps_dims _ _ _ _ D' FS) as FS'.
  set (f := fun j => vget (qc q) (n + j)). set (u := sq_v n E). set (z := sq_z n k E P).
  assert (PS : forall y, (0 <= quad k K y)%Qc).
  { intro y. specialize (GE y). assert (G : (0 <= sum k (fun i => y i * y i))%Qc) by (apply sum_nonneg; intros; apply qc_sq_nonneg).
    assert (E6 : (0 <= q1em6)%Qc) by (apply qleb_ok; reflexivity). pose proof (qc_mul_nonneg _ _ E6 G). qc_lra. }
  (* costs, up to what the controls cannot change *)
  assert (CO : forall y V, cost y V = (total_cost_from ps h (spCost (ctl w)) y (fun _ => 0) + objective k K (fun j => u y j + f j) V)%Qc).
  { intros y V. set (X := cat n y V). assert (CL : forall i, i < n -> X i = y i) by (intros i Hi; apply cat_l; exact Hi).
    assert (CR : forall i, ctrl_part n X i = V i) by (intro i; apply cat_r).
    pose proof (si_value n m N SF h w p s e b w' S Is X CA FS') as V1. cbv zeta in V1.
    assert (V2 : qp_value q X = (objective n (at_ (qQ q)) (vget (qc q)) X + objective k K (fun j => sum n (fun i => E i j * X i) + f j) (ctrl_part n X))%Qc).
    { unfold qp_value. rewrite R3. apply (objective_blocks n k _ _ X E). exact HE. }
    rewrite V1 in V2. unfold cost_from. rewrite Dk.
    rewrite (total_ext X y (fun _ => 0%Qc) (fun _ => 0%Qc) CL (fun _ _ => eq_refl)) in V2.
    rewrite (total_ext X y (ctrl_part n X) V CL (fun i _ => CR i)) in V2.
    assert (RG : regularization k (ctrl_part n X) = regularization k V) by (unfold regularization; do 2 f_equal; apply sum_ext; intros i Hi; rewrite CR; reflexivity).
    rewrite RG in V2. rewrite (Properties_InitialState.objective_ext k K _ (ctrl_part n X) V) in V2 by (intros i _; apply CR).
    rewrite (CostMeaning.objective_ext k K K (fun j => sum n (fun i => E i j * X i) + f j)%Qc (fun j => u y j + f j)%Qc V) in V2;
      [|reflexivity|intros j Hj; f_equal; unfold u, sq_v; apply sum_ext; intros i Hi; rewrite CL by exact Hi; reflexivity].
    match type of V2 with (?a + ?g + (?o - ?t) = ?o + ?x)%Qc => transitivity (a + g + (o - t) - o + t)%Qc; [ring|rewrite V2; ring] end. }
  (* the cheapest controls *)
  set (b0 := fun i => (- apply k P f i)%Qc). set (best := fun y i => (b0 i - z y i)%Qc).
  assert (K0 : forall i, i < k -> apply k K b0 i = (- f i)%Qc).
  { intros i Hi. unfold b0, apply at 1.
    rewrite (sum_ext k _ (fun l => - sum k (fun a => K i l * P l a * f a))%Qc)
      by (intros l Hl; unfold apply; rewrite (sum_ext k (fun a => K i l * P l a * f a)%Qc (fun a => K i l * (P l a * f a))%Qc) by (intros; ring); rewrite sum_scal_l; ring).
    rewrite sum_opp. f_equal. rewrite sum_swap. rewrite (sum_ext k _ (fun a => if Nat.eqb a i then f a else 0%Qc)).
    - apply (sum_delta k i f). exact Hi.
    - intros a Ha. rewrite sum_scal_r, (IV i a Hi Ha). rewrite (Nat.eqb_sym i a). destruct (Nat.eqb a i); ring. }
  assert (KB : forall y i, i < k -> apply k K (best y) i = (- (u y i + f i))%Qc).
  { intros y i Hi. unfold best. assert (AS : apply k K (fun j => b0 j - z y j)%Qc i = (apply k K b0 i - apply k K (z y) i)%Qc)
      by (unfold apply; rewrite <- sum_sub; apply sum_ext; intros; ring).
    rewrite AS, K0 by exact Hi. unfold z. rewrite (sq_Qz n k (at_ (qQ q)) E P IV y i Hi). fold (u y i). ring. }
  assert (GA : forall y V, (cost y V - cost y (best y))%Qc = (half * quad k K (fun i => V i - best y i))%Qc).
  { intros y V. rewrite !CO. rewrite <- (objective_gap k K SY (fun j => u y j + f j)%Qc (best y) V (KB y)). ring. }
  assert (HH : (0 < half)%Qc) by reflexivity.
  assert (NN : forall y V, (0 <= cost y V - cost y (best y))%Qc).
  { intros y V. rewrite GA. apply qc_mul_nonneg; [apply Qclt_le_weak; exact HH|apply PS]. }
  exists best, (half * quad k K b0 + sum k (fun i => f i * b0 i))%Qc. split; [|split].
  - intros y V. specialize (NN y V). qc_lra.
  - intros y V Le i Hi. destruct (Qc_eq_dec (V i) (best y i)) as [Q|Q]; [exact Q|exfalso].
    assert (PP : (0 < quad k K (fun i => V i - best y i))%Qc).
    { apply PD. exists i. split; [exact Hi|]. intro Z. apply Q. transitivity (V i - best y i + best y i)%Qc; [ring|rewrite Z; ring]. }
    pose proof (Qcmult_lt_compat_r _ _ _ HH PP) as M. rewrite Qcmult_0_l, (Qcmult_comm _ half), <- GA in M.
    apply (Qclt_not_le _ _ M). qc_lra.
  - intros y V. set (X := cat n y V). assert (CL : forall i, i < n -> X i = y i) by (intros i Hi; apply cat_l; exact Hi).
    assert (CR : forall i, ctrl_part n X i = V i) by (intro i; apply cat_r).
    assert (T1 : tilt cost best y = sum k (fun i => f i * (best y i - b0 i))%Qc).
    { unfold tilt. cbv zeta. rewrite !CO. set (c0 := total_cost_from _ _ _ _ _). set (D := fun j => (best y j - best (fun _ => 0) j)%Qc).
      change (fun j => - (best y j - best (fun _ => 0) j))%Qc with (fun j => - D j)%Qc.
      transitivity (half * (objective k K (fun j => u (fun _ => 0%Qc) j + f j)%Qc D - objective k K (fun j => u (fun _ => 0%Qc) j + f j)%Qc (fun j => - D j)%Qc))%Qc; [ring|].
      rewrite obj_odd. apply sum_ext. intros j Hj.
      assert (U0 : forall a, u (fun _ => 0%Qc) a = 0%Qc) by (intro a; unfold u, sq_v; apply sum_zero; intros; ring).
      assert (Z0 : z (fun _ => 0%Qc) j = 0%Qc) by (unfold z, sq_z, apply; apply sum_zero; intros a Ha; fold u; rewrite U0; ring).
      rewrite U0. unfold D, best at 2. rewrite Z0. ring. }
    rewrite GA, T1. rewrite <- (Qcplus_assoc (start_cost n s y)), <- (Qcplus_assoc (start_cost n s y)).
    rewrite <- (shifted_quad k K SY f b0 (best y) (z y) V K0 (fun i _ => eq_refl)).
    unfold qp_value, objective. rewrite R3. fold (quad (n + k) (at_ (qQ q)) X).
    rewrite (complete_square n k (at_ (qQ q)) (at_ (isR s)) E P X SY IV HE HT). rewrite sum_plus. unfold start_cost, objective.
    assert (Q1 : quad n (at_ (isR s)) X = sum n (fun i => y i * apply n (at_ (isR s)) y i)%Qc).
    { unfold quad. apply sum_ext. intros i Hi. rewrite CL by exact Hi. f_equal. unfold apply. apply sum_ext. intros j Hj. rewrite CL by exact Hj. reflexivity. }
    assert (Q2 : quad k K (fun j => ctrl_part n X j + sq_z n k E P X j)%Qc = quad k K (fun i => V i + z y i)%Qc).
    { assert (ZZ : forall j, sq_z n k E P X j = z y j) by (intro j; unfold z, sq_z, apply; apply sum_ext; intros a Ha; f_equal; unfold sq_v; apply sum_ext; intros i Hi; rewrite CL by exact Hi; reflexivity).
      unfold quad, apply. apply sum_ext. intros i Hi. rewrite CR, ZZ. f_equal. apply sum_ext. intros j Hj. rewrite CR, ZZ. reflexivity. }
    rewrite Q1, Q2.
    rewrite (sum_ext n (fun i => vget (qc q) i * X i)%Qc (fun i => vget (isr s) i * y i)%Qc) by (intros i Hi; rewrite Hr, CL by exact Hi; reflexivity).
    rewrite (sum_ext k (fun i => vget (qc q) (n + i) * X (n + i)%nat)%Qc (fun i => f i * V i)%Qc) by (intros i Hi; change (X (n + i)) with (ctrl_part n X i); rewrite CR; reflexivity).
    ring.
Qed.
End Chosen.
