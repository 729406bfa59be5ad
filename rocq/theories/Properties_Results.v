(** Properties_Results.v -- C35, C40, C41: what solve publishes. *)
From Verif Require Import Base Eigen Spec Preview SpecApi PreviewProofs AutoSpan Constraints Costs Controller Registry SpecController Assembly Results Checkers Properties_Assembly.

(** ** C35: a failed solve keeps control() and trajectory() *)
Theorem C35_failure_keeps : forall e w w', solve e w = Some (false, w') ->
  m_ctrl (ctl w') = m_ctrl (ctl w) /\ m_traj (ctl w') = m_traj (ctl w).
Proof.
  intros e w w' H. destruct (solve_parts _ _ _ _ H) as [w1 [r [Eb [_ [w4 [E4 ->]]]]]]. cbv zeta in E4. injection E4 as <-. cbn.
  destruct (build_data _ _ _ Eb) as [A [B _]]. auto.
Qed.
Print Assumptions C35_failure_keeps.

(** published trajectory: entry [k*xDim + i] is component [i] of the state at step [k] *)
Definition is_trajectory (ps : psys) (x U X : vec Qc) : Prop :=
  vsize X = fullXDim ps /\ vsize U = fullUDim ps /\
  forall k i, k <= nrUStep ps -> i < xDim ps -> vget X (k * xDim ps + i) = state_of ps (vget x) (vget U) k i.

Lemma preview_trajectory ps x U X : ps_wf ps -> ps_rep ps -> vsize x = xDim ps ->
  preview ps x U = Some X -> is_trajectory ps x U X.
Proof.
  intros W R Hx E.
  assert (HU : vsize U = fullUDim ps).
  { unfold preview in E. destruct (mvmul (psPhi ps) x) as [a|]; [|discriminate]. cbn [obind] in E.
    unfold mvmul in E. destruct (Nat.eqb_spec (cols (psPsi ps)) (vsize U)) as [Q|]; [|discriminate]. rewrite <- Q. apply (wf_Psc ps W). }
  rewrite preview_ok in E by assumption. injection E as <-. split; [reflexivity|]. split; [exact HU|].
  intros k i Hk Hi. cbn. apply affine_state; try assumption. rewrite (wf_nx ps W). lia.
Qed.

Theorem C35_success_publishes : forall h w p e w',
  reached h w -> honest world0 h -> m_ps (ctl w) = Some p -> m_is (ctl w) = None -> 1 <= nrUStep (wps w p) ->
  solve e w = Some (true, w') ->
  let q := m_qp (ctl w') in
  let ps := wps w' p in
  (* control() is the answer of the solver to the problem it was given *)
  s_qp e (vsize (qc q)) (nrEq (ctl w')) (nrIneq (ctl w')) q = (true, m_ctrl (ctl w')) /\
  (* trajectory() is the trajectory of x_{k+1} = A x_k + B u_k + d from x0 *)
  is_trajectory ps (x0 ps) (m_ctrl (ctl w')) (m_traj (ctl w')) /\
  (* of the system the user gave *)
  x0 ps = x0 (wps w p) /\ psA ps = psA (wps w p) /\ psB ps = psB (wps w p) /\ psd ps = psd (wps w p) /\ same_dims ps (wps w p).
Proof.
  intros h w p e w' R Ho Ep Ei N H. cbv zeta. pose proof (reached_sound _ _ R Ho p) as S.
  destruct (solve_qp _ _ _ _ H) as [v [Eb' [Q1 [Q2 [Q3 [_ [_ [Q4 [_ [_ Q5]]]]]]]]]].
  destruct (solve_parts _ _ _ _ H) as [w1 [r [Eb [_ [w4 [E4 Ew]]]]]]. cbv zeta in E4.
  rewrite Eb in Eb'. injection Eb' as <-.
  destruct (build_data _ _ _ Eb) as [_ [_ [_ [P1 [I1 [p' [ps [Ep' [Eu W1]]]]]]]]]. rewrite Ep in Ep'. injection Ep' as <-.
  destruct (ensure_ready _ _ S N Eu) as [Rd [W [Rp [Sd [X0 [EA [EB Ed]]]]]]].
  rewrite Q1, Q2, Q3, Q4, W1. replace (upd (wps w) p ps p) with ps by (unfold upd; rewrite Nat.eqb_refl; reflexivity).
  unfold updateResults in E4. cbn in E4. rewrite P1, Ep, I1, Ei, W1 in E4.
  replace (upd (wps w) p ps p) with ps in E4 by (unfold upd; rewrite Nat.eqb_refl; reflexivity).
  destruct (preview ps (x0 ps) r) as [X|] eqn:Epr; [|discriminate]. cbn [obind] in E4. injection E4 as <-. subst w'. cbn in Q5 |- *.
  split; [exact Q5|]. split; [|auto]. apply preview_trajectory; try assumption. apply (rd_x0 ps Rd).
Qed.
Print Assumptions C35_success_publishes.

(** the same for InitialStateLMPC: the answer is the initial state followed by the control *)
Theorem C35_success_publishes_initial_state : forall h w p is e w',
  reached h w -> honest world0 h -> m_ps (ctl w) = Some p -> m_is (ctl w) = Some is -> 1 <= nrUStep (wps w p) ->
  solve e w = Some (true, w') ->
  vsize (m_sol (ctl w')) = xDim (wps w p) + fullUDim (wps w p) ->
  let q := m_qp (ctl w') in
  let ps := wps w' p in
  s_qp e (vsize (qc q)) (nrEq (ctl w')) (nrIneq (ctl w')) q = (true, m_sol (ctl w')) /\
  (forall j, j < fullUDim ps -> vget (m_ctrl (ctl w')) j = vget (m_sol (ctl w')) (xDim ps + j)) /\
  (exists x, initialState w' = Some x /\ vsize x = xDim ps /\
     (forall i, i < xDim ps -> vget x i = vget (m_sol (ctl w')) i) /\
     is_trajectory ps x (m_ctrl (ctl w')) (m_traj (ctl w'))) /\
  x0 ps = x0 (wps w p) /\ psA ps = psA (wps w p) /\ psB ps = psB (wps w p) /\ psd ps = psd (wps w p) /\ same_dims ps (wps w p).
Proof.
  intros h w p is e w' R Ho Ep Ei N H V. cbv zeta. pose proof (reached_sound _ _ R Ho p) as S.
  destruct (solve_qp _ _ _ _ H) as [v [Eb' [Q1 [Q2 [Q3 [_ [_ [Q4 [_ [_ Q5]]]]]]]]]].
  destruct (solve_parts _ _ _ _ H) as [w1 [r [Eb [_ [w4 [E4 Ew]]]]]]. cbv zeta in E4.
  rewrite Eb in Eb'. injection Eb' as <-.
  destruct (build_data _ _ _ Eb) as [_ [_ [_ [P1 [I1 [p' [ps [Ep' [Eu W1]]]]]]]]]. rewrite Ep in Ep'. injection Ep' as <-.
  destruct (ensure_ready _ _ S N Eu) as [Rd [W [Rp [Sd [X0 [EA [EB Ed]]]]]]].
  rewrite Q1, Q2, Q3, Q4, W1. replace (upd (wps w) p ps p) with ps by (unfold upd; rewrite Nat.eqb_refl; reflexivity).
  unfold updateResults in E4. cbn in E4. rewrite P1, Ep, I1, Ei, W1 in E4.
  replace (upd (wps w) p ps p) with ps in E4 by (unfold upd; rewrite Nat.eqb_refl; reflexivity).
  destruct (tail r (fullUDim ps)) as [u|] eqn:Et; [|discriminate]. cbn [obind] in E4.
  unfold initialState in E4. cbn in E4. rewrite P1, Ep, W1 in E4.
  replace (upd (wps w) p ps p) with ps in E4 by (unfold upd; rewrite Nat.eqb_refl; reflexivity).
  destruct (seg r 0 (xDim ps)) as [xi|] eqn:Es; [|discriminate]. cbn [obind] in E4.
  destruct (preview ps xi u) as [X|] eqn:Epr; [|discriminate]. cbn [obind] in E4. injection E4 as <-. subst w'. cbn in Q5, V |- *.
  split; [exact Q5|]. pose proof Sd as [D1 [D2 [D3 [D4 [D5 D6]]]]].
  apply tail_inv in Et as [T1 ->].
  unfold seg in Es. destruct (_ <=? _) in Es; [|discriminate]. injection Es as <-.
  split. { intros j Hj. cbn. f_equal. lia. }
  split; [|auto]. eexists. split.
  { unfold initialState. cbn. rewrite P1, Ep, W1. replace (upd (wps w) p ps p) with ps by (unfold upd; rewrite Nat.eqb_refl; reflexivity).
    unfold seg. rewrite (proj2 (Nat.leb_le _ _)) by lia. reflexivity. }
  split; [reflexivity|]. split; [reflexivity|].
  eapply preview_trajectory in Epr; [exact Epr|exact W|exact Rp|reflexivity].
Qed.
Print Assumptions C35_success_publishes_initial_state.

(** a history with an equality, a bound, two solves; then a failing solve *)
Definition ex35 : list op := h_start ++
  [ONewCon d_eq; ONewCon d_bound; ONewCost d_cost; OAddCon j0 0; OAddCon j0 1; OAddCost j0 0; OSolve env_ok;
   OPs 0 (PXInit (vlit [7; -1]%Z)); OPs 0 PClearUpdated; OPs 0 (PSetModel exA exB (vlit [1; 0]%Z))].
Definition env_answer (ok : bool) (l : list Z) : senv := env_with ok (fun _ => vlit l).
Example C35_example :
  honestb world0 ex35 = true /\
  match run world0 ex35 with
  | Some w => match m_ps (ctl w), m_is (ctl w), solve (env_answer true [5; 7; 1]%Z) w with
              | Some p, None, Some (true, w') =>
                  (1 <=? nrUStep (wps w p)) &&
                  forallb (fun xy => qeqb (fst xy) (snd xy))
                    (combine (vdump (m_traj (ctl w'))) (map qz [7; -1; 7; 4; 12; 11; 24; 12]%Z)) &&
                  Nat.eqb (vsize (m_traj (ctl w'))) 8 &&
                  match solve (env_answer false [0; 0; 0]%Z) w' with
                  | Some (false, w'') => forallb (fun xy => qeqb (fst xy) (snd xy)) (combine (vdump (m_ctrl (ctl w''))) (map qz [5; 7; 1]%Z))
                  | _ => false end
              | _, _, _ => false end
  | None => false end = true.
Proof. vm_compute. split; reflexivity. Qed.
Example C35_example_initial_state :
  honestb world0 ex28is = true /\
  match run world0 ex28is with
  | Some w => match m_ps (ctl w), m_is (ctl w), solve (env_answer true [3; 2; 5; 7; 1]%Z) w with
              | Some p, Some _, Some (true, w') =>
                  (1 <=? nrUStep (wps w p)) && Nat.eqb (vsize (m_sol (ctl w'))) (xDim (wps w p) + fullUDim (wps w p))
              | _, _, _ => false end
  | None => false end = true.
Proof. vm_compute. split; reflexivity. Qed.

(** ** C40 *)
(** the published initial state respects the bounds of the initial state when the solver respects the bounds it is given *)
Theorem C40_initial_state_in_bounds : forall h w p is e w',
  reached h w -> honest world0 h -> m_ps (ctl w) = Some p -> m_is (ctl w) = Some is -> 1 <= nrUStep (wps w p) ->
  vsize (qc (m_qp (ctl w))) = xDim (wps w p) + fullUDim (wps w p) ->
  solve e w = Some (true, w') ->
  let q := m_qp (ctl w') in
  (forall r, s_qp e (vsize (qc q)) (nrEq (ctl w')) (nrIneq (ctl w')) q = (true, r) ->
     vsize r = vsize (qc q) /\ within_bounds (vsize (qc q)) (vget (qlb q)) (vget (qub q)) (vget r)) ->
  exists x, initialState w' = Some x /\ vsize x = xDim (wps w p) /\
    within_bounds (xDim (wps w p)) (vget (isx0lb is)) (vget (isx0ub is)) (vget x) /\
    is_trajectory (wps w' p) x (m_ctrl (ctl w')) (m_traj (ctl w')).
Proof.
  intros h w p is e w' R Ho Ep Ei N Dm H. cbv zeta. intro Sv.
  assert (D : xDim (wps w' p) = xDim (wps w p) /\ fullUDim (wps w' p) = fullUDim (wps w p)).
  { pose proof (reached_sound _ _ R Ho p) as S. destruct (solve_qp _ _ _ _ H) as [v [Eb [_ [_ [_ [_ [_ [Q4 _]]]]]]]].
    destruct (build_data _ _ _ Eb) as [_ [_ [_ [_ [_ [p' [ps [Ep' [Eu W1]]]]]]]]]. rewrite Ep in Ep'. injection Ep' as <-.
    rewrite Q4, W1. replace (upd (wps w) p ps p) with ps by (unfold upd; rewrite Nat.eqb_refl; reflexivity).
    destruct (ensure_ready _ _ S N Eu) as [_ [_ [_ [[D1 [_ [_ [_ [_ D2]]]]] _]]]]. auto. }
  destruct D as [D1 D2].
  assert (K := C28_assembly_initial_state h w p is e true w' R Ep Ei H). cbv zeta in K. rewrite D1, D2 in K. specialize (K Dm).
  destruct K as [K0 [K1 [K2 [_ [_ [K3 [_ [_ [_ [_ [_ [_ [_ [_ [_ [K4 _]]]]]]]]]]]]]]]].
  specialize (Sv (m_sol (ctl w'))). rewrite K3, K1, K2 in Sv. specialize (Sv K0). destruct Sv as [V Sb].
  destruct (C35_success_publishes_initial_state h w p is e w' R Ho Ep Ei N H V) as [_ [_ [[x [Ex [Vx [Gx Tx]]]] _]]].
  exists x. split; [exact Ex|]. split; [congruence|]. split; [|exact Tx].
  intros i Hi. rewrite Gx by congruence. destruct (K4 i Hi) as [<- <-]. apply Sb. lia.
Qed.
Print Assumptions C40_initial_state_in_bounds.

(** calls that neither solve, nor change the solver, the controller or the system *)
Definition leaves_solution (o : op) : bool :=
  match o with
  | OSolve _ | OSolver _ | OConstruct _ _ _ | OInitController _ _ | OPs _ (PSystem _ _ _ _ _) => false
  | _ => true
  end.
Lemma leaves_kept o w w' : leaves_solution o = true -> step w o = Ok w' \/ (exists x, step w o = Throw x w') ->
  m_sol (ctl w') = m_sol (ctl w) /\ m_ctrl (ctl w') = m_ctrl (ctl w) /\ m_traj (ctl w') = m_traj (ctl w) /\
  m_ps (ctl w') = m_ps (ctl w) /\ (forall p, xDim (wps w' p) = xDim (wps w p)).
Proof.
  intros L H. unfold step in H.
  assert (OM : forall A (f : A -> world) o,
     (forall a, ctl (f a) = ctl w /\ wps (f a) = wps w) ->
     out_map f o = Ok w' \/ (exists x, out_map f o = Throw x w') -> ctl w' = ctl w /\ wps w' = wps w).
  { intros A f [a|x a|] Hf [X|[y X]]; cbn in X; try discriminate X; injection X; intros; subst; apply Hf. }
  assert (T : ctl w' = ctl w /\ wps w' = wps w -> m_sol (ctl w') = m_sol (ctl w) /\ m_ctrl (ctl w') = m_ctrl (ctl w) /\ m_traj (ctl w') = m_traj (ctl w) /\
    m_ps (ctl w') = m_ps (ctl w) /\ (forall p, xDim (wps w' p) = xDim (wps w p))).
  { intros [-> ->]. auto. }
  destruct o; cbn in L; try discriminate L; unfold with_con, with_cost in H;
    repeat match type of H with context [if ?b then _ else _] => destruct b end;
    try (destruct H as [H|[? H]]; try discriminate H; injection H; intros; subst; auto; fail);
    try (apply T; eapply OM; [|exact H]; intros; split; reflexivity).
  - destruct o; try discriminate L; cbn [ps_step out_map of_opt] in H.
    + destruct H as [H|[? H]]; [|discriminate H]. injection H as <-. cbn. do 4 (split; [reflexivity|]). intro q. unfold upd. destruct (Nat.eqb_spec q p) as [->|]; reflexivity.
    + destruct H as [H|[? H]]; [|discriminate H]. injection H as <-. cbn. do 4 (split; [reflexivity|]). intro q. unfold upd. destruct (Nat.eqb_spec q p) as [->|]; reflexivity.
    + destruct H as [H|[? H]]; [|discriminate H]. injection H as <-. cbn. do 4 (split; [reflexivity|]). intro q. unfold upd. destruct (Nat.eqb_spec q p) as [->|]; reflexivity.
    + destruct (updateSystem (wps w p)) as [s|] eqn:E; destruct H as [H|[? H]]; try discriminate H. injection H as <-. cbn. do 4 (split; [reflexivity|]).
      intro q. unfold upd. destruct (Nat.eqb_spec q p) as [->|]; [|reflexivity]. unfold updateSystem, obind in E. break_match E. injection E as <-. reflexivity.
    + destruct (ensureUpdated (wps w p)) as [s|] eqn:E; destruct H as [H|[? H]]; try discriminate H. injection H as <-. cbn. do 4 (split; [reflexivity|]).
      intro q. unfold upd. destruct (Nat.eqb_spec q p) as [->|]; [|reflexivity]. unfold ensureUpdated in E. destruct (isUpdated _); [injection E as <-; reflexivity|].
      unfold updateSystem, obind in E. break_match E. injection E as <-. reflexivity.
  - unfold addCost in H. destruct (m_ps (ctl w)) eqn:Emp; [|destruct H as [H|[? H]]; discriminate H].
    destruct (initializeCost _ _ _); destruct H as [H|[? H]]; try discriminate H; injection H; intros; subst; cbn; rewrite ?Emp; auto.
  - unfold addConstraint in H. destruct (m_ps (ctl w)) eqn:Emp; [|destruct H as [H|[? H]]; discriminate H].
    destruct (initializeConstraint _ _ _) as [c|x c|]; destruct H as [H|[? H]]; try discriminate H.
    + unfold of_opt in H. destruct (addConstraintByType _ _) as [v|] eqn:E; [|discriminate]. injection H as <-.
      unfold addConstraintByType in E. cbn in E. destruct (constraintType _); try (destruct (fits_int _); [|discriminate]); injection E as <-; cbn; rewrite ?Emp; auto.
    + unfold of_opt in H. destruct (addConstraintByType _ _); discriminate H.
    + injection H; intros; subst; cbn; rewrite ?Emp; auto.
  - unfold removeCost in H. destruct (erase_first _ _); destruct H as [H|[? H]]; try discriminate H; injection H as <-; cbn; auto.
  - destruct H as [H|[? H]]; unfold of_opt in H; destruct (removeConstraint w i) as [v|] eqn:E; try discriminate H.
    injection H as <-. unfold removeConstraint in E. destruct (erase_first i (spC (ctl w))); [|injection E as <-; auto].
    destruct (constraintType _); (destruct (erase_first i _); [|discriminate]); cbn [obind] in E; injection E as <-; cbn; auto.
  - destruct H as [H|[? H]]; unfold of_opt in H; destruct (clearConstraints w) as [v|] eqn:E; try discriminate H.
    injection H as <-. unfold clearConstraints in E. destruct (m_ps (ctl w)) eqn:Emp; [|discriminate].
    unfold clearConstraintMatrices in E. destruct (fits_int _); [|discriminate]. cbn [obind] in E. injection E as <-. cbn. rewrite ?Emp. auto.
  - destruct H as [H|[? H]]; try discriminate H. injection H as <-. unfold resetX0Cost. cbn. destruct (m_is (ctl w)); cbn; auto.
  - destruct H as [H|[? H]]; try discriminate H. injection H as <-. unfold resetX0Bounds. cbn. destruct (m_is (ctl w)); cbn; auto.
Qed.

(** the part of "remains so until the next successful solve" that holds: through any number of calls other than a solve
    (even a failing one), selectQPSolver, initializeController and system *)
Theorem C40_results_kept_partial : forall h w w', Forall (fun o => leaves_solution o = true) h -> run w h = Some w' ->
  initialState w' = initialState w /\ m_ctrl (ctl w') = m_ctrl (ctl w) /\ m_traj (ctl w') = m_traj (ctl w).
Proof.
  induction h as [|o t IH]; intros w w' F H; cbn [run] in H; [injection H as <-; auto|].
  inversion F as [|? ? F1 F2]; subst.
  destruct (step w o) as [v|x v|] eqn:E; [| |discriminate];
    (destruct (leaves_kept o w v F1) as [A [B [C [D G]]]]; [eauto|]; destruct (IH v w' F2 H) as [H1 [H2 H3]];
     split; [rewrite H1; unfold initialState; rewrite D; destruct (m_ps (ctl w)); [rewrite A, G; reflexivity|reflexivity]|split; congruence]).
Qed.
Print Assumptions C40_results_kept_partial.

(** false of the code: initialState() reads the answer of the last solve even if it failed, so after a
    failed solve it is not the initial state of trajectory() *)
Theorem C40_failed_solve_refuted : exists h w p e e' w1 w2 x,
  reached h w /\ honest world0 h /\ m_ps (ctl w) = Some p /\ m_is (ctl w) <> None /\
  solve e w = Some (true, w1) /\ solve e' w1 = Some (false, w2) /\
  initialState w2 = Some x /\ vget x 0 <> vget (m_traj (ctl w2)) 0 /\
  m_traj (ctl w2) = m_traj (ctl w1).
Proof.
  exists ex28is.
  assert (T0 : match run world0 ex28is with Some _ => true | None => false end = true) by (vm_compute; reflexivity).
  destruct (run world0 ex28is) as [w|] eqn:Er; [clear T0|discriminate T0].
  exists w, 0, (env_answer true [3; 2; 5; 7; 1]%Z), (env_answer false [8; 8; 0; 0; 0]%Z).
  assert (T : match solve (env_answer true [3; 2; 5; 7; 1]%Z) w with
    | Some (true, w1) => match solve (env_answer false [8; 8; 0; 0; 0]%Z) w1 with
        | Some (false, w2) => match initialState w2 with
            | Some x => negb (qeqb (vget x 0) (vget (m_traj (ctl w2)) 0))
            | None => false end
        | _ => false end
    | _ => false end = true).
  { transitivity (match run world0 ex28is with Some w => match solve (env_answer true [3; 2; 5; 7; 1]%Z) w with
    | Some (true, w1) => match solve (env_answer false [8; 8; 0; 0; 0]%Z) w1 with
        | Some (false, w2) => match initialState w2 with
            | Some x => negb (qeqb (vget x 0) (vget (m_traj (ctl w2)) 0))
            | None => false end
        | _ => false end
    | _ => false end | None => false end); [rewrite Er; reflexivity|vm_compute; reflexivity]. }
  assert (T2 : m_ps (ctl w) = Some 0 /\ m_is (ctl w) <> None).
  { assert (X : match run world0 ex28is with Some w => match m_ps (ctl w), m_is (ctl w) with Some 0, Some _ => true | _, _ => false end | None => false end = true)
      by (vm_compute; reflexivity). rewrite Er in X. destruct (m_ps (ctl w)) as [[|]|]; try discriminate X.
    destruct (m_is (ctl w)); [|discriminate X]. split; [reflexivity|discriminate]. }
  destruct (solve _ w) as [[[|] w1]|] eqn:E1; try discriminate T.
  destruct (solve _ w1) as [[[|] w2]|] eqn:E2; try discriminate T.
  destruct (initialState w2) as [x|] eqn:E3; try discriminate T.
  exists w1, w2, x. split; [exact Er|]. split; [apply honestb_ok; vm_compute; reflexivity|].
  split; [apply T2|]. split; [apply T2|]. split; [reflexivity|]. split; [exact E2|]. split; [exact E3|]. split.
  - apply negb_true_iff in T. intro X. rewrite X in T. unfold qeqb in T. destruct (Qc_eq_dec _ _) in T; [discriminate T|congruence].
  - apply (C35_failure_keeps _ _ _ E2).
Qed.
Print Assumptions C40_failed_solve_refuted.

(** ** C41: false of the code.  R_, r_, x0lb_, x0ub_ keep their default sizes 0 *)
Lemma wrong_R_undefined w p is e : m_ps (ctl w) = Some p -> m_is (ctl w) = Some is -> rows (isR is) <> xDim (wps w p) ->
  solve e w = None.
Proof.
  intros Ep Ei X. destruct (solve e w) as [[b w2]|] eqn:E; [exfalso|reflexivity].
  apply solve_parts in E as [v [_ [Eb _]]]. apply build_parts in Eb as [p' [ps [wc [wk [q [Ep' [Eu [_ [_ [_ [_ [Eq _]]]]]]]]]]]]. cbv zeta in Eq.
  rewrite Ep in Ep'. injection Ep' as <-. rewrite Ei in Eq.
  apply is_form_spec in Eq. destruct Eq as [Q [c [lb [ub [_ [_ [_ [_ [S5 _]]]]]]]]].
  assert (Hx : xDim ps = xDim (wps w p)).
  { unfold ensureUpdated in Eu. destruct (isUpdated _); [injection Eu as <-; reflexivity|].
    unfold updateSystem, obind in Eu. break_match Eu. injection Eu as <-. reflexivity. }
  unfold is_corner in S5. destruct (_ && _) in S5; [|discriminate].
  destruct (block Q _ _ _ _) as [E|]; [|discriminate]. cbn [obind] in S5.
  destruct (setBlock Q _ _ _ _ _) as [Q1|]; [|discriminate]. cbn [obind] in S5.
  destruct (block Q1 0 _ _ _) as [E1|] eqn:EE; [|discriminate]. cbn [obind] in S5.
  destruct (block Q1 (rows Q1 - fullUDim ps) _ _ _) as [U|] in S5; [|discriminate]. cbn [obind] in S5.
  destruct (mmul E1 _) as [eq|] eqn:M1; [|discriminate]. cbn [obind] in S5.
  destruct (mmul eq _) as [eqe|] eqn:M2; [|discriminate]. cbn [obind] in S5.
  destruct (madd (isR is) eqe) as [tl|] eqn:M3; [|discriminate].
  apply madd_inv in M3 as [M3 _]. apply mmul_inv in M2 as [_ ->]. apply mmul_inv in M1 as [_ ->]. apply block_inv in EE as [_ [_ ->]].
  cbn in M3. congruence.
Qed.
Lemma initController_fields j w p w' : initializeController j w p = Some w' ->
  m_ps (ctl w') = Some p /\ m_is (ctl w') = m_is (ctl w) /\ wps w' = wps w.
Proof.
  unfold initializeController, clearConstraintMatrices. destruct (fits_int _); [|discriminate]. cbn [obind].
  intro H. injection H as <-. auto.
Qed.
Theorem C41_empty_construction_refuted : forall j r j' w w0 w1 p e,
  construct j CIS r w = Some w0 -> initializeController j' w0 p = Some w1 -> 1 <= xDim (wps w p) ->
  solve e w1 = None.
Proof.
  intros j r j' w w0 w1 p e C I X. cbn in C. injection C as <-.
  apply initController_fields in I as [I1 [I2 I3]]. cbn in I2.
  eapply wrong_R_undefined; [exact I1|exact I2|]. rewrite I3. cbn. lia.
Qed.
Print Assumptions C41_empty_construction_refuted.
Example C41_example :
  match construct j0 CIS qempty (set_ps world0 0 exps) with
  | Some w0 => match initializeController j0 w0 0 with Some w1 => (1 <=? xDim (wps w1 0)) | None => false end
  | None => false end = true.
Proof. vm_compute. reflexivity. Qed.
Example C40_example :
  honestb world0 ex28is = true /\
  match run world0 ex28is with
  | Some w => match m_ps (ctl w), m_is (ctl w), solve (env_answer true [3; 2; 5; 7; 1]%Z) w with
              | Some p, Some is, Some (true, w') =>
                  (1 <=? nrUStep (wps w p)) && Nat.eqb (vsize (qc (m_qp (ctl w)))) (xDim (wps w p) + fullUDim (wps w p)) &&
                  within_boundsb (vsize (qc (m_qp (ctl w')))) (vget (qlb (m_qp (ctl w')))) (vget (qub (m_qp (ctl w')))) (vget (m_sol (ctl w'))) &&
                  Nat.eqb (vsize (isx0lb is)) 2
              | _, _, _ => false end
  | None => false end = true.
Proof. vm_compute. split; reflexivity. Qed.
