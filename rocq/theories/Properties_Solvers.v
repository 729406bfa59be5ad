(** Properties_Solvers.v -- C42, C43, C44, C51, C52: the qp solvers behind LMPC::solve. *)
From Verif Require Import Base Eigen Spec Preview SpecApi PreviewProofs AutoSpan AutoSpanProofs Constraints ConstraintProofs
  SpecConstraints ConstraintMeaning Checkers Costs SpecCosts CostProofs CostMeaning Properties_Costs Controller Registry SpecController Assembly
  Results Properties_Assembly Properties_Results SpecProtocol Protocol Properties_Protocol SpecEndToEnd Properties_Registry
  EndToEnd EndToEndQP EndToEndRows EndToEndMain Convex ExactSolver Properties_EndToEnd Determined StateExt InitialState Properties_InitialState
  Solvers SpecSolvers SolverProofs Existence.

(** ** C42: QuadProg *)

(** the problem given to the library has the announced sizes, and the same points with the same values *)
Theorem C42_quadprog_same_problem : forall nv ne ni q jm jv,
  well_sized nv ne ni q -> fits_int (ni + 2 * nv) = true ->
  exists p, quadprog_problem nv ne ni = Some (nv, ne, ni + 2 * nv) /\ quadprog_args jm jv q = Some p /\
    ineq_sized nv ne (ni + 2 * nv) p /\
    (forall x, ineq_feasible p x <-> feasible q x) /\ (forall x, ineq_value p x = qp_value q x).
Proof.
  intros nv ne ni q jm jv W F. destruct (quadprog_ok nv ne ni q jm jv W) as [p [Ea [Z [B1 [B2 _]]]]].
  exists p. unfold quadprog_problem. rewrite F.
  replace (fits_int (2 * nv)) with true by (symmetry; apply fits_int_le in F; unfold fits_int, INT_MAX; apply Z.leb_le; lia).
  split; [reflexivity|]. split; [exact Ea|]. split; [exact Z|]. split.
  - intro x. exact (quadprog_feasible nv ne ni q jm jv p x W Ea).
  - intro x. unfold ineq_value, qp_value. rewrite B1, B2. reflexivity.
Qed.
Print Assumptions C42_quadprog_same_problem.

(** with an exact library the adapter is an exact solver; with a complete one it finds every solution *)
Theorem C42_quadprog_exact : forall lib e jm jv, ineq_exact lib ->
  exact_solver (with_solver e (quadprog_solver lib jm jv)).
Proof.
  intros lib e jm jv EX nv ne ni q r H W. cbn [with_solver s_qp] in H. unfold as_s_qp in H.
  destruct (quadprog_solver lib jm jv nv ne ni q) as [[ok r']|] eqn:E; [|discriminate]. injection H as -> ->.
  unfold quadprog_solver in E. destruct (quadprog_problem nv ne ni) as [[[nv' ne'] ni']|] eqn:Ep; [|discriminate]. cbn [obind] in E.
  destruct (quadprog_args jm jv q) as [p|] eqn:Ea; [|discriminate]. cbn [obind] in E.
  destruct (ineq_dims nv' ne' ni' p) eqn:D; [|discriminate]. injection E as E.
  apply ineq_dims_sized in D.
  assert (EP : nv' = nv /\ ne' = ne /\ ni' = ni + 2 * nv).
  { unfold quadprog_problem in Ep. destruct (fits_int _); [|discriminate]. destruct (fits_int _); [|discriminate]. injection Ep as <- <- <-. auto. }
  destruct EP as [-> [-> ->]].
  destruct (EX _ _ _ _ _ D E) as [Sz Le].
  split; [exact Sz|]. destruct Le as [L1 L2]. split.
  - apply (quadprog_feasible nv ne ni q jm jv p _ W Ea). exact L1.
  - intros V FV. apply (quadprog_feasible nv ne ni q jm jv p _ W Ea) in FV. specialize (L2 V FV).
    destruct (quadprog_ok nv ne ni q jm jv W) as [p' [Ea' [_ [B1 [B2 _]]]]]. rewrite Ea in Ea'. injection Ea' as <-.
    unfold ineq_value in L2. rewrite B1, B2 in L2. exact L2.
Qed.
Print Assumptions C42_quadprog_exact.
Theorem C42_quadprog_complete : forall lib jm jv nv ne ni q x,
  (forall p, quadprog_args jm jv q = Some p -> ineq_complete lib p) ->
  well_sized nv ne ni q -> fits_int (ni + 2 * nv) = true -> least (feasible q) (qp_value q) x ->
  exists r, quadprog_solver lib jm jv nv ne ni q = Some (true, r).
Proof.
  intros lib jm jv nv ne ni q x CO W F [L1 L2].
  destruct (C42_quadprog_same_problem nv ne ni q jm jv W F) as [p [Ep [Ea [Z [Fe Va]]]]].
  unfold quadprog_solver. rewrite Ep, Ea. cbn [obind]. rewrite (proj2 (ineq_dims_sized _ _ _ _) Z).
  assert (K : fst (lib nv ne (ni + 2 * nv) p) = true).
  { apply (CO p Ea _ _ _ x Z). split; [apply Fe; exact L1|]. intros y Hy. rewrite !Va. apply L2. apply Fe. exact Hy. }
  destruct (lib nv ne (ni + 2 * nv) p) as [ok r]. cbn in K. subst ok. exists r. reflexivity.
Qed.
Print Assumptions C42_quadprog_complete.

(** every solve of every history following the protocol gives the solver matrices of the announced sizes: the adapters
    are called within their domain *)
Theorem C42_solve_calls : forall n m N h w p e b w',
  sizes_fit n m N -> follows_protocol n m N world0 h -> honest world0 h -> reached h w ->
  m_ps (ctl w) = Some p -> solve e w = Some (b, w') ->
  let q := m_qp (ctl w') in
  let nv := match m_is (ctl w) with None => m * N | Some _ => n + m * N end in
  s_qp e nv (rows (qAeq q)) (rows (qAineq q)) q = (b, m_sol (ctl w')) /\ well_sized nv (rows (qAeq q)) (rows (qAineq q)) q.
Proof.
  intros n m N h w p e b w' SF FP HO RE Ep So. cbv zeta.
  pose proof (Build_solved _ _ _ _ _ _ _ _ _ SF FP RE HO Ep So) as S.
  destruct (m_is (ctl w)) as [s|] eqn:Is.
  - split; [|exact (si_well_sized n m N SF h w p s e b w' S Is)].
    destruct (si_dims n m N SF h w p s e b w' S Is) as [D1 [D2 [Qw _]]].
    assert (A := C28_assembly_initial_state h w p s e b w' RE Ep Is So). cbv zeta in A. rewrite D1, D2 in A.
    apply (A (proj1 (proj2 (proj2 Qw)))).
  - pose proof (sv_well_sized n m N SF h w p e b w' FP RE HO Ep Is So) as W.
    destruct (sd_ps _ _ _ _ _ _ _ _ _ S) as [_ [SD _]]. assert (FU : fullUDim (wps w' p) = m * N) by apply SD. rewrite FU in W.
    split; [|exact W]. destruct (C28_assembly h w p e b w' RE Ep Is So) as [A1 _]. cbv zeta in A1.
    destruct W as [_ [_ [Q3 _]]]. rewrite Q3 in A1. exact A1.
Qed.
Print Assumptions C42_solve_calls.

(** ** C43: LSSOL and OSQP *)
Theorem C43_lssol_same_problem : forall s nv ne ni q jm jv,
  well_sized nv ne ni q -> fits_int (ne + ni) = true ->
  exists s1 s2 p, lssol_problem jm jv s nv ne ni = Some (nv, ne + ni, s1) /\ lssol_args s1 q = Some (s2, p) /\
    box_sized nv (ne + ni) p /\
    (forall x, box_feasible p x <-> feasible q x) /\ (forall x, box_value p x = qp_value q x).
Proof.
  intros s nv ne ni q jm jv W F. destruct (lssol_ok s nv ne ni q jm jv W F) as [s1 [s2 [p [E1 [E2 B]]]]].
  exists s1, s2, p. split; [exact E1|]. split; [exact E2|]. split; [apply B|]. split.
  - intro x. rewrite (box_of_feasible _ _ _ _ _ _ x W B). split; [tauto|]. intro H. split; [exact H|]. intros i _. exact I.
  - intro x. exact (box_of_value _ _ _ _ _ _ x B).
Qed.
Print Assumptions C43_lssol_same_problem.
Theorem C43_osqp_same_problem : forall nv ne ni q jm jv,
  well_sized nv ne ni q -> fits_int (ne + ni) = true ->
  exists p, osqp_problem nv ne ni = Some (nv, ne + ni) /\ osqp_args jm jv q = Some p /\ box_sized nv (ne + ni) p /\
    (forall x, box_feasible p x <-> feasible q x /\ rows_representable q x) /\ (forall x, box_value p x = qp_value q x).
Proof.
  intros nv ne ni q jm jv W F. destruct (osqp_ok nv ne ni q jm jv W) as [p [E2 B]].
  exists p. unfold osqp_problem. rewrite F. split; [reflexivity|]. split; [exact E2|]. split; [apply B|]. split.
  - intro x. rewrite (box_of_feasible _ _ _ _ _ _ x W B). unfold rows_representable.
    destruct W as [_ [_ [_ [_ [_ [_ [-> [-> _]]]]]]]]. reflexivity.
  - intro x. exact (box_of_value _ _ _ _ _ _ x B).
Qed.
Print Assumptions C43_osqp_same_problem.
(** the answer of a solution whose rows are above -DBL_MAX is a solution of the problem itself *)
Theorem C43_osqp_bound_harmless : forall q x,
  (forall v, (0 <= sum (vsize (qc q)) (fun i => v i * apply (vsize (qc q)) (at_ (qQ q)) v i))%Qc) ->
  rows_strictly_representable q x ->
  least (fun y => feasible q y /\ rows_representable q y) (qp_value q) x -> least (feasible q) (qp_value q) x.
Proof. intros q x PS. apply slack_least. exact PS. Qed.
Print Assumptions C43_osqp_bound_harmless.

(** what LMPC::solve gets from an LSSOL solver in the state [s] *)
Definition lssol_answer (lib : box_lib) (jm : nat -> nat -> Qc) (jv : nat -> ext) (s : lssol) (nv ne ni : nat) (q : qp) :=
  option_map snd (lssol_solver lib jm jv s nv ne ni q).
Theorem C43_lssol_solves : forall lib jm jv s nv ne ni q,
  well_sized nv ne ni q -> fits_int (ne + ni) = true ->
  exists ok r, lssol_answer lib jm jv s nv ne ni q = Some (ok, r) /\
    (box_exact lib -> ok = true -> vsize r = nv /\ least (feasible q) (qp_value q) (vget r)) /\
    ((forall s1 s2 p, lssol_problem jm jv s nv ne ni = Some (nv, ne + ni, s1) -> lssol_args s1 q = Some (s2, p) -> box_complete lib p) ->
     (exists x, least (feasible q) (qp_value q) x) -> ok = true).
Proof.
  intros lib jm jv s nv ne ni q W F.
  destruct (C43_lssol_same_problem s nv ne ni q jm jv W F) as [s1 [s2 [p [E1 [E2 [Z [Fe Va]]]]]]].
  unfold lssol_answer, lssol_solver. rewrite E1. cbn [obind]. rewrite E2. cbn [obind].
  rewrite (proj2 (box_dims_sized _ _ _) Z). cbn [option_map snd].
  destruct (lib nv (ne + ni) p) as [ok r] eqn:El. exists ok, r. split; [reflexivity|]. split.
  - intros EX ->. destruct (EX _ _ _ _ Z El) as [Sz [L1 L2]]. split; [exact Sz|]. split; [apply Fe; exact L1|].
    intros y Fy. rewrite <- !Va. apply L2. apply Fe. exact Fy.
  - intros CO [x [L1 L2]]. assert (K : fst (lib nv (ne + ni) p) = true).
    { apply (CO s1 s2 p eq_refl E2 _ _ x Z). split; [apply Fe; exact L1|]. intros y Fy. rewrite !Va. apply L2. apply Fe. exact Fy. }
    rewrite El in K. exact K.
Qed.
Print Assumptions C43_lssol_solves.
Theorem C43_osqp_solves : forall lib jm jv nv ne ni q,
  well_sized nv ne ni q -> fits_int (ne + ni) = true ->
  exists ok r, osqp_solver lib jm jv nv ne ni q = Some (ok, r) /\
    (box_exact lib -> ok = true ->
       vsize r = nv /\ least (fun x => feasible q x /\ rows_representable q x) (qp_value q) (vget r)) /\
    ((forall p, osqp_args jm jv q = Some p -> box_complete lib p) ->
     (exists x, least (fun x => feasible q x /\ rows_representable q x) (qp_value q) x) -> ok = true).
Proof.
  intros lib jm jv nv ne ni q W F.
  destruct (C43_osqp_same_problem nv ne ni q jm jv W F) as [p [E1 [E2 [Z [Fe Va]]]]].
  unfold osqp_solver. rewrite E1. cbn [obind]. rewrite E2. cbn [obind].
  rewrite (proj2 (box_dims_sized _ _ _) Z).
  destruct (lib nv (ne + ni) p) as [ok r] eqn:El. exists ok, r. split; [reflexivity|]. split.
  - intros EX ->. destruct (EX _ _ _ _ Z El) as [Sz [L1 L2]]. split; [exact Sz|]. split; [apply Fe; exact L1|].
    intros y Fy. rewrite <- !Va. apply L2. apply Fe. exact Fy.
  - intros CO [x [L1 L2]]. assert (K : fst (lib nv (ne + ni) p) = true).
    { apply (CO p eq_refl _ _ x Z). split; [apply Fe; exact L1|]. intros y Fy. rewrite !Va. apply L2. apply Fe. exact Fy. }
    rewrite El in K. exact K.
Qed.
Print Assumptions C43_osqp_solves.
Theorem C43_forwarding_solves : forall lib nv ne ni q,
  well_sized nv ne ni q ->
  exists ok r, forward_solver lib nv ne ni q = Some (ok, r) /\
    (full_exact lib -> ok = true -> vsize r = nv /\ least (feasible q) (qp_value q) (vget r)) /\
    (full_complete lib q -> (exists x, least (feasible q) (qp_value q) x) -> ok = true).
Proof.
  intros lib nv ne ni q W. unfold forward_solver. rewrite (proj2 (full_dims_sized _ _ _ _) W).
  destruct (lib nv ne ni q) as [ok r] eqn:El. exists ok, r. split; [reflexivity|]. split.
  - intros EX ->. exact (EX _ _ _ _ _ W El).
  - intros CO [x L]. pose proof (CO _ _ _ x W L) as K. rewrite El in K. exact K.
Qed.
Print Assumptions C43_forwarding_solves.

(** ** C44: the factories *)
Theorem C44_each_flag : forall c,
  (* the value of each declared flag gives the solver of that name *)
  (forall v, value c F_LSSOL = Some v -> solverFactory c v = LSSOLSolver) /\
  (forall v, value c F_GUROBIDense = Some v -> solverFactory c v = GUROBISolver) /\
  (forall v, value c F_QLD = Some v -> solverFactory c v = QLDSolver) /\
  (forall v, value c F_OSQP = Some v -> solverFactory c v = OSQPSolver) /\
  (forall v, value c F_QuadProgDense = Some v -> solverFactory c v = QuadProgDenseSolver) /\
  (forall v, value c F_DEFAULT = Some v -> solverFactory c v = QuadProgDenseSolver) /\
  (* the flags of the libraries found, and only them, are declared *)
  (value c F_LSSOL <> None <-> has_lssol c = true) /\ (value c F_GUROBIDense <> None <-> has_gurobi c = true) /\
  (value c F_QLD <> None <-> has_qld c = true) /\ (value c F_OSQP <> None <-> has_osqp c = true) /\
  value c F_QuadProgDense <> None /\ value c F_DEFAULT = Some 0%Z /\
  (* different flags have different values *)
  (forall f g v, value c f = Some v -> value c g = Some v -> f = g).
Proof.
  intros [[] [] [] []]; unfold value; cbn; repeat split; intros;
    try (match goal with H : Some _ = Some _ |- _ => injection H as <-; reflexivity end); try discriminate; try reflexivity;
    try (match goal with H : None <> None |- _ => exfalso; apply H; reflexivity end);
    try (destruct f, g; cbn in *; congruence).
Qed.
Print Assumptions C44_each_flag.
(** any other value, and the two factories *)
Theorem C44_total : forall c v,
  ((forall f, value c f <> Some v) -> solverFactory c v = QuadProgDenseSolver) /\ pythonSolverFactory c v = solverFactory c v.
Proof.
  intros c v. split; [|reflexivity]. intro H. unfold solverFactory, case.
  repeat match goal with |- context [value c ?f] => destruct (value c f) eqn:?E end;
  repeat match goal with |- context [Z.eqb v ?k] =>
    let K := fresh in destruct (Z.eqb_spec v k) as [K|K]; [subst k; exfalso; eapply H; eassumption|] end;
  rewrite ?andb_false_r; reflexivity.
Qed.
Print Assumptions C44_total.
(** in python OSQP has no name, the other flags keep their values *)
Theorem C44_python_names : forall c f, In f (python_enumerators c) <-> f <> F_OSQP /\ In f (enumerators c).
Proof.
  intros c f. unfold python_enumerators, enumerators. rewrite !in_app_iff.
  destruct (has_osqp c); cbn; split; intro H; intuition (subst; try discriminate; auto);
  repeat match goal with H : In ?x (if ?b then _ else _) |- _ => destruct b; cbn in H end; intuition (subst; discriminate).
Qed.
Print Assumptions C44_python_names.

(** ** C51: settings *)
Theorem C51_read_back_partial : forall k s n t w,
  (k = ALSSOL \/ k = AOSQP -> SI_maxIter k (SI_set_maxIter k n s) = n /\ SI_warmStart k (SI_set_warmStart k w s) = w) /\
  (k = ALSSOL -> SI_feasibilityTolerance k (SI_set_feasibilityTolerance k t s) = t) /\
  (* the tolerance is used by the solvers that have one *)
  (k <> AQuadProg -> tolerance_used k (SI_set_feasibilityTolerance k t s) = Some t) /\
  (* LSSOL: both iteration limits *)
  (k = ALSSOL -> b_optMaxIter (SI_set_maxIter k n s) = n /\ b_feasMaxIter (SI_set_maxIter k n s) = n) /\
  (* the settings are independent *)
  SI_maxIter k (SI_set_warmStart k w s) = SI_maxIter k s /\ SI_maxIter k (SI_set_feasibilityTolerance k t s) = SI_maxIter k s /\
  SI_warmStart k (SI_set_maxIter k n s) = SI_warmStart k s /\ SI_warmStart k (SI_set_feasibilityTolerance k t s) = SI_warmStart k s /\
  tolerance_used k (SI_set_maxIter k n s) = tolerance_used k s /\ tolerance_used k (SI_set_warmStart k w s) = tolerance_used k s.
Proof. intros [] s n t w; repeat split; try reflexivity; try congruence; intros; destruct H; try discriminate; reflexivity. Qed.
Print Assumptions C51_read_back_partial.
(** a solver without a setting reports -1 (false) and setting it changes nothing *)
Theorem C51_unsupported : forall k s, k = AQLD \/ k = AQuadProg ->
  SI_maxIter k s = (-1)%Z /\ SI_warmStart k s = false /\ (forall n, SI_set_maxIter k n s = s) /\ (forall w, SI_set_warmStart k w s = s) /\
  (k = AQuadProg -> SI_feasibilityTolerance k s = (- (1))%Qc /\ forall t, SI_set_feasibilityTolerance k t s = s).
Proof. intros k s [-> | ->]; repeat split; discriminate. Qed.
Print Assumptions C51_unsupported.
(** QLD and OSQP use the tolerance they are given, and always report -1 *)
Theorem C51_refuted : forall k s t, k = AQLD \/ k = AOSQP ->
  tolerance_used k (SI_set_feasibilityTolerance k t s) = Some t /\
  SI_feasibilityTolerance k (SI_set_feasibilityTolerance k t s) = (- (1))%Qc.
Proof. intros k s t [-> | ->]; split; reflexivity. Qed.
Print Assumptions C51_refuted.

(** ** C52: when solve succeeds *)

(** an exact and complete solver makes solve return true exactly when the problem it poses has a feasible point *)
Theorem C52_success_iff_feasible : forall n m N h w p e b w',
  sizes_fit n m N -> follows_protocol n m N world0 h -> honest world0 h -> reached h w ->
  m_ps (ctl w) = Some p -> solve e w = Some (b, w') ->
  let q := m_qp (ctl w') in
  pos_def (vsize (qc q)) (at_ (qQ q)) -> exact_solver e -> complete_for e q ->
  (b = true <-> exists V, feasible q V).
Proof.
  intros n m N h w p e b w' SF FP HO RE Ep So q PD EX CO.
  destruct (C42_solve_calls n m N h w p e b w' SF FP HO RE Ep So) as [Es W]. cbv zeta in Es, W. fold q in Es, W.
  set (nv := match m_is (ctl w) with None => _ | Some _ => _ end) in *. assert (C : vsize (qc q) = nv) by apply W. rewrite C in PD.
  split.
  - intros ->. destruct (EX _ _ _ _ _ Es W) as [_ [Fe _]]. eauto.
  - intro Ex. destruct (qp_attained _ _ _ _ W PD Ex) as [x L]. pose proof (CO _ _ _ x W L) as K. rewrite Es in K. exact K.
Qed.
Print Assumptions C52_success_iff_feasible.
(** LMPC: solve returns true exactly when some control satisfies every registered constraint (and is representable, when
    there are no control bounds) *)
Theorem C52_success_iff_admissible : forall n m N h w p e b w',
  sizes_fit n m N -> follows_protocol n m N world0 h -> callable world0 h -> honest world0 h -> nonneg_weights h -> reached h w ->
  m_ps (ctl w) = Some p -> m_is (ctl w) = None ->
  (* the registered trajectory bounds were given with the same size; no bounds of a removed constraint are left *)
  (forall i, In i (spC (ctl w)) -> even_bounds h i) -> (spB (ctl w) <> [] \/ stale world0 false h = false) ->
  exact_solver e -> solve e w = Some (b, w') -> complete_for e (m_qp (ctl w')) ->
  let ps := wps w' p in
  (b = true <-> exists V, all_imposed ps h (spC (ctl w)) V /\ (spB (ctl w) = [] -> representable (fullUDim ps) V)).
Proof.
  intros n m N h w p e b w' SF FP CA HO NW RE Ep NI NS ST EX So CO ps.
  assert (PD := C27_cost_matrix n m N h w p e b w' SF FP NW RE Ep NI So). cbv zeta in PD. destruct PD as [_ [_ [_ [_ [_ PD]]]]].
  rewrite (C52_success_iff_feasible n m N h w p e b w' SF FP HO RE Ep So PD EX CO).
  split; intros [V FV]; exists V; apply (sv_feasible n m N SF h w p e b w' FP RE HO Ep NI So V CA ST NS); exact FV.
Qed.
Print Assumptions C52_success_iff_admissible.

(** InitialStateLMPC, with a positive definite R: exactly when there is an initial state within its bounds and a control
    which together satisfy every registered constraint *)
Theorem C52_success_iff_admissible_initial_state : forall n m N h w p s e b w',
  sizes_fit n m N -> follows_protocol n m N world0 h -> callable world0 h -> honest world0 h -> nonneg_weights h -> reached h w ->
  m_ps (ctl w) = Some p -> m_is (ctl w) = Some s ->
  (forall i, In i (spC (ctl w)) -> even_bounds h i) -> (spB (ctl w) <> [] \/ stale world0 false h = false) ->
  exact_solver e -> solve e w = Some (b, w') -> complete_for e (m_qp (ctl w')) ->
  (* Eigen's inverse is exact on the cost matrix of the controls *)
  right_inverse e (m * N) (fun i j => at_ (qQ (m_qp (ctl w'))) (n + i) (n + j)) ->
  pos_def n (at_ (isR s)) ->
  let ps := wps w' p in
  (b = true <-> exists x V, within_bounds (xDim ps) (vget (isx0lb s)) (vget (isx0ub s)) x /\
     all_imposed_from ps h (spC (ctl w)) x V /\ (spB (ctl w) = [] -> representable (fullUDim ps) V)).
Proof.
  intros n m N h w p s e b w' SF FP CA HO NW RE Ep Is NS ST EX So CO RI PR ps.
  assert (PD := C39_positive_definite_partial n m N h w p s e b w' SF FP HO NW RE Ep Is So RI). cbv zeta in PD.
  destruct PD as [_ [_ [_ [_ [_ PD]]]]].
  rewrite (C52_success_iff_feasible n m N h w p e b w' SF FP HO RE Ep So (PD PR) EX CO).
  pose (S := Build_solved n m N h w p e b w' SF FP RE HO Ep So).
  destruct (sd_ps _ _ _ _ _ _ _ _ _ S) as [R _].
  destruct (si_dims n m N SF h w p s e b w' S Is) as [Dn [Dk _]]. fold ps in Dn, Dk, R.
  assert (Fq : forall X, feasible (m_qp (ctl w')) X <-> _) by (intro X; exact (si_feasible n m N SF h w p s e b w' S Is X CA ST NS)).
  fold ps in Fq. rewrite Dn, Dk. split.
  - intros [X FX]. exists X, (ctrl_part n X). apply Fq. exact FX.
  - intros [y [V [BY [AY RY]]]]. exists (cat n y V). apply Fq.
    split; [intros i Hi; rewrite cat_l by exact Hi; apply BY; exact Hi|]. split.
    + intros i d Hi Hd. specialize (AY i d Hi Hd). revert AY. apply imposes_ext; [exact R| |]; intros j Hj; [rewrite Dn in Hj; apply cat_l; exact Hj|apply cat_r].
    + intro E. eapply representable_ext; [intros; symmetry; apply cat_r|exact (RY E)].
Qed.
Print Assumptions C52_success_iff_admissible_initial_state.

(** with the default solver of LMPC on an exact and complete library: true exactly when some control satisfies every
    registered constraint (and is representable, without control bounds) *)
Theorem C52_success_iff_admissible_partial : forall n m N h w p e0 lib jm jv b w',
  sizes_fit n m N -> follows_protocol n m N world0 h -> callable world0 h -> honest world0 h -> nonneg_weights h -> reached h w ->
  m_ps (ctl w) = Some p -> m_is (ctl w) = None ->
  (* the registered trajectory bounds were given with the same size; no bounds of a removed constraint are left *)
  (forall i, In i (spC (ctl w)) -> even_bounds h i) -> (spB (ctl w) <> [] \/ stale world0 false h = false) ->
  ineq_exact lib ->
  solve (with_solver e0 (quadprog_solver lib jm jv)) w = Some (b, w') ->
  (forall q, quadprog_args jm jv (m_qp (ctl w')) = Some q -> ineq_complete lib q) ->
  fits_int (rows (qAineq (m_qp (ctl w'))) + 2 * (m * N)) = true ->
  let ps := wps w' p in
  (b = true <-> exists V, all_imposed ps h (spC (ctl w)) V /\ (spB (ctl w) = [] -> representable (fullUDim ps) V)).
Proof.
  intros n m N h w p e0 lib jm jv b w' SF FP CA HO NW RE Ep NI NS ST LE So LC FI ps.
  set (e := with_solver e0 (quadprog_solver lib jm jv)) in *.
  assert (PD := C27_cost_matrix n m N h w p e b w' SF FP NW RE Ep NI So). cbv zeta in PD. destruct PD as [_ [_ [_ [_ [_ PD]]]]].
  pose proof (C42_solve_calls n m N h w p e b w' SF FP HO RE Ep So) as [_ W]. cbv zeta in W. rewrite NI in W.
  rewrite (C52_success_iff_feasible n m N h w p e b w' SF FP HO RE Ep So PD).
  - split; intros [V FV]; exists V; apply (sv_feasible n m N SF h w p e b w' FP RE HO Ep NI So V CA ST NS); exact FV.
  - apply C42_quadprog_exact. exact LE.
  - intros k a c x W' L.
    assert (EK : k = m * N /\ a = rows (qAeq (m_qp (ctl w'))) /\ c = rows (qAineq (m_qp (ctl w')))).
    { destruct W' as [R1 [_ [_ [R4 [_ [_ [R7 _]]]]]]]. destruct W as [V1 _]. repeat split; congruence. }
    destruct EK as [-> [-> ->]].
    destruct (C42_quadprog_complete lib jm jv _ _ _ _ x LC W' FI L) as [r Er].
    cbn [e with_solver s_qp]. unfold as_s_qp. rewrite Er. reflexivity.
Qed.
Print Assumptions C52_success_iff_admissible_partial.

(** ** Examples *)

(** one variable, 1/2 x^2 - 4 x, x <= 1 by a row and -3 <= x <= 3: QuadProg gets the three rows 1, 1, -1 *)
Definition ex42 : qp :=
  QP (mlit [[1]]%Z) (vlit [-4]%Z) (mlit [[1]]%Z) (elit [fin 1]) (Mx 0 1 (fun _ _ => 0%Qc)) (Vec 0 (fun _ => NInf)) (elit [fin (-3)]) (elit [fin 3]).
Example ex42_ok : well_sized 1 0 1 ex42 /\ fits_int (1 + 2 * 1) = true /\
  match quadprog_args (fun _ _ => qz 7) (fun _ => PInf) ex42 with
  | Some p => rows (iA p) = 3 /\ map (fun i => at_ (iA p) i 0) [0; 1; 2] = map qz [1; 1; -1]%Z /\
              map (vget (ib p)) [0; 1; 2] = map fin [1; 3; 3]%Z
  | None => False end.
Proof. split; [repeat split|]. split; [reflexivity|]. vm_compute. repeat split. Qed.
(** the same for the two-sided rows *)
Example ex43_ok :
  match osqp_args (fun _ _ => qz 7) (fun _ => PInf) ex42 with
  | Some p => rows (xA p) = 1 /\ at_ (xA p) 0 0 = qz 1 /\ vget (xbl p) 0 = no_lower /\ vget (xbu p) 0 = fin 1
  | None => False end.
Proof. vm_compute. repeat split. Qed.
(** an exact QuadProg library (it answers the certified solutions it knows), and a problem it solves *)
Definition unbounded (p : ineq_qp) : qp :=
  QP (iQ p) (ic p) (iA p) (ib p) (iAeq p) (ibeq p) (vconst (vsize (ic p)) NInf) (vconst (vsize (ic p)) PInf).
Definition lib_certs (cs : list cert) : ineq_lib := fun nv ne ni p => s_qp (env_certs cs) nv ne ni (unbounded p).
Lemma lib_certs_exact cs : ineq_exact (lib_certs cs).
Proof.
  intros nv ne ni p r Z H. destruct (env_certs_exact cs _ _ _ _ _ H) as [Sz [Fe Op]].
  { unfold ineq_sized in Z. unfold well_sized, unbounded. cbn. destruct Z as [? [? [-> Z]]]. tauto. }
  assert (G : forall x, feasible (unbounded p) x <-> ineq_feasible p x).
  { intro x. unfold feasible, ineq_feasible, unbounded. cbn [qAeq qbeq qAineq qbineq qlb qub vconst vsize vget].
    split; [tauto|]. intros [A B]. split; [exact A|]. split; [exact B|]. intros i _. split; exact I. }
  split; [exact Sz|]. split; [apply G; exact Fe|]. intros y Hy. apply Op. apply G. exact Hy.
Qed.
Lemma lib_certs_complete cs p : (forall a b, fst (lib_certs cs (vsize (ic p)) a b p) = true) -> ineq_complete (lib_certs cs) p.
Proof. intros H nv ne ni x [_ [_ [E _]]] _. rewrite <- E. apply H. Qed.
Definition lib42 : ineq_lib := lib_certs [Cert [qz 1] [] [qz 3; qz 0; qz 0] [] [(qz 1, [qz 1])]].
Example ex42_exact : ineq_exact lib42 /\
  match quadprog_solver lib42 (fun _ _ => qz 7) (fun _ => PInf) 1 0 1 ex42 with
  | Some (true, r) => vsize r = 1 /\ vget r 0 = qz 1
  | _ => False end.
Proof. split; [apply lib_certs_exact|]. vm_compute. repeat split. Qed.
Example ex44_ok : map (fun v => solverFactory (Config true false true false) v) [0; 1; 2; 3; 4; -1]%Z
  = [QuadProgDenseSolver; LSSOLSolver; QLDSolver; QuadProgDenseSolver; QuadProgDenseSolver; QuadProgDenseSolver].
Proof. reflexivity. Qed.
(** C36_example with QuadProg: one row per state constraint and two per control *)
Definition lib52 : ineq_lib := lib_certs [Cert [qz 1; qz 0] [] [qz 0; (qz 3 - q1em6)%Qc; qz 6] []
       [(qz 4, [qz 1; qz 1]); ((qz 1 + q1em6)%Qc, [qz 1]); (q1em6, [qz 0; qz 1])]].
Definition env52 : senv := with_solver env_ok (quadprog_solver lib52 (fun _ _ => qz 7) (fun _ => PInf)).
Example C52_example : ineq_exact lib52 /\ exact_solver env52 /\
  match run world0 ex36 with
  | Some w => match solve env52 w with
      | Some (true, w') => fits_int (rows (qAineq (m_qp (ctl w'))) + 2 * (1 * 2)) &&
          forallb (fun xy => qeqb (fst xy) (snd xy)) (combine (vdump (m_ctrl (ctl w'))) (map qz [1; 0]%Z)) &&
          match quadprog_args (fun _ _ => qz 7) (fun _ => PInf) (m_qp (ctl w')) with
          | Some p => fst (lib52 (vsize (ic p)) 0 7 p)
          | None => false end
      | _ => false end
  | None => false end = true.
Proof. split; [apply lib_certs_exact|]. split; [apply C42_quadprog_exact, lib_certs_exact|]. vm_compute. reflexivity. Qed.
(** the conditions of [C52_success_iff_admissible] and [C52_success_iff_admissible_initial_state] are met by the examples of
    C36 and C49 *)
Lemma certs_complete c e q : s_qp e = s_qp (env_certs [c]) -> kkt_check q c = true -> complete_for e q.
Proof.
  intros E K k a b x WS _. rewrite E. unfold env_certs. cbn [s_qp pick]. rewrite K. destruct WS as [_ [_ [-> _]]]. rewrite Nat.eqb_refl. reflexivity.
Qed.
Example C52_example_admissible : exists w w', reached ex36 w /\ solve (env_certs [cert36]) w = Some (true, w') /\ m_is (ctl w) = None /\
  complete_for (env_certs [cert36]) (m_qp (ctl w')).
Proof.
  assert (C : match run world0 ex36 with Some w => match solve (env_certs [cert36]) w with Some (true, w') =>
      kkt_check (m_qp (ctl w')) cert36 && match m_is (ctl w) with None => true | _ => false end | _ => false end | None => false end = true)
    by (vm_compute; reflexivity).
  destruct (run world0 ex36) as [w|] eqn:Er; [|discriminate C]. destruct (solve (env_certs [cert36]) w) as [[[|] w']|] eqn:Es; try discriminate C.
  apply andb_true_iff in C as [C C2]. exists w, w'. split; [exact Er|]. split; [exact Es|].
  split; [destruct (m_is (ctl w)) as [s|]; [discriminate C2|reflexivity]|].
  apply (certs_complete cert36); [reflexivity|exact C].
Qed.
Example C52_example_initial_state : exists w s w', reached ex49 w /\ solve env49 w = Some (true, w') /\ m_is (ctl w) = Some s /\
  complete_for env49 (m_qp (ctl w')) /\ pos_def 1 (at_ (isR s)) /\
  right_inverse env49 (1 * 2) (fun i j => at_ (qQ (m_qp (ctl w'))) (1 + i) (1 + j)).
Proof.
  assert (C : match run world0 ex49 with Some w => match solve env49 w with Some (true, w') =>
      kkt_check (m_qp (ctl w')) cert49 | _ => false end | None => false end = true)
    by (vm_compute; reflexivity).
  destruct C39_example as [C39 _].
  destruct (run world0 ex49) as [w|] eqn:Er; [|discriminate C]. specialize (C39 w Er).
  destruct (m_is (ctl w)) as [s|] eqn:Ei; [|contradiction].
  destruct (solve env49 w) as [[[|] w']|] eqn:Es; try discriminate C.
  exists w, s, w'. split; [exact Er|]. split; [exact Es|]. split; [exact Ei|]. split; [apply (certs_complete cert49); [reflexivity|exact C]|].
  split; apply C39.
Qed.
