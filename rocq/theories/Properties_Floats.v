(** Properties_Floats.v -- C58, C59: the prediction and the constraints computed in floating point. *)
From Coq Require Import Permutation Qcabs.
From Verif Require Import Base Eigen Spec Preview SpecApi PreviewProofs AutoSpan Constraints ConstraintProofs SpecConstraints.
From Verif Require Import ConstraintMeaning Checkers Properties_Constraints.
From Verif Require Import Floats SpecFloats FloatProofs FloatPreview FloatConstraints FloatRows Binary64.
Open Scope Qc_scope.

(** ** C58: the predicted trajectory *)
Theorem C58_prediction : forall u F state control bias xInit n ps1 h,
  accurate u F -> ps_new state control bias xInit n = Ok ps1 -> f_hist_ok F ps1 h ->
  exists ps, f_ps_run F ps1 h = Some ps /\
  exists ps', f_updateSystem F ps = Some ps' /\
    psA ps' = psA ps /\ psB ps' = psB ps /\ psd ps' = psd ps /\ x0 ps' = x0 ps /\ same_dims ps' ps /\
    forall x U, vsize x = xDim ps -> vsize U = (uDim ps * nrUStep ps)%nat ->
      exists X, f_preview F ps' x U = Some X /\
        predicts u (nrUStep ps * (xDim ps + uDim ps + 1)) ps (vget x) (vget U) X.
Proof.
  intros u F s c b x n ps1 h Ac E H. apply system_inv in E.
  destruct (f_run_inv F h ps1 E H) as [ps [Er [W X]]]. exists ps. split; [exact Er|].
  destruct (f_update_near u F ps Ac W) as [ps' [E2 [W2 [_ [D1 [D2 [D3 [D4 [D5 [D6 [D7 [D8 [D9 [D10 N]]]]]]]]]]]]]].
  exists ps'. split; [exact E2|]. repeat (split; [assumption|]). split; [repeat split; assumption|].
  intros y U Hy HU.
  pose proof (wf_fu ps W) as EU. pose proof (wf_fx ps W) as EX. pose proof (wf_nx ps W) as EN. pose proof (wf_nu ps W) as HN.
  destruct (f_preview_near u F _ ps' y U Ac W2 N) as [Z [Ez [Sz G]]]; [congruence|congruence|].
  exists Z. split; [exact Ez|]. split; [rewrite Sz, D5, EX, EN; reflexivity|].
  intros t i Ht Hi. specialize (G (t * xDim ps + i)%nat). rewrite D5 in G.
  assert (B : (t * xDim ps + i < fullXDim ps)%nat) by (rewrite EX, EN; nia).
  destruct (G B) as [_ G2]. unfold stacked_state, stacked_size, state_of, size_of in G2. rewrite D3, D4, D6, D8, D9, D10 in G2.
  rewrite blk_quot, blk_rem in G2 by exact Hi. unfold state_of, size_of.
  replace (nrUStep ps * (xDim ps + uDim ps + 1))%nat
    with ((nrUStep ps - 1) * (xDim ps + 1) + (1 + xDim ps + fullUDim ps))%nat; [exact G2|].
  rewrite EU. destruct (nrUStep ps) as [|N']; [lia|]. replace (S N' - 1)%nat with N' by lia. lia.
Qed.

(** whatever the arithmetic: the sizes, the first state and causality *)
Theorem C58_any_arithmetic : forall F state control bias xInit n ps1 h,
  ps_new state control bias xInit n = Ok ps1 -> f_hist_ok F ps1 h ->
  exists ps, f_ps_run F ps1 h = Some ps /\
  exists ps', f_updateSystem F ps = Some ps' /\ isUpdated ps' = true /\
    rows (psPhi ps') = (xDim ps * (nrUStep ps + 1))%nat /\ cols (psPhi ps') = xDim ps /\
    rows (psPsi ps') = (xDim ps * (nrUStep ps + 1))%nat /\ cols (psPsi ps') = (uDim ps * nrUStep ps)%nat /\
    vsize (psxi ps') = (xDim ps * (nrUStep ps + 1))%nat /\
    (* the first state is the initial state *)
    (forall i j, (i < xDim ps)%nat -> (j < xDim ps)%nat -> at_ (psPhi ps') i j = if Nat.eqb i j then 1 else 0) /\
    (forall i, (i < xDim ps)%nat -> vget (psxi ps') i = 0) /\
    (* a control has no influence on the states up to its step *)
    (forall k l i j, (k <= l)%nat -> (l < nrUStep ps)%nat -> (i < xDim ps)%nat -> (j < uDim ps)%nat ->
       at_ (psPsi ps') (k * xDim ps + i)%nat (l * uDim ps + j)%nat = 0).
Proof.
  intros F s c b x n ps1 h E H. apply system_inv in E.
  destruct (f_run_inv F h ps1 E H) as [ps [Er [W X]]]. exists ps. split; [exact Er|].
  destruct (P_any F ps W) as [ps' [E2 [W2 [U2 [D1 [D2 [D3 [D4 [D5 [D6 _]]]]]]]]]].
  exists ps'. split; [exact E2|]. split; [exact U2|].
  rewrite (wf_Phr ps' W2), (wf_Phc ps' W2), (wf_Psr ps' W2), (wf_Psc ps' W2), (wf_xi ps' W2).
  rewrite D5, D6, D3, (wf_fx ps W), (wf_fu ps W), (wf_nx ps W). repeat (split; [reflexivity|]).
  split; [rewrite <- D3; apply (wf_Ph0 ps' W2)|]. split; [rewrite <- D3; apply (wf_xi0 ps' W2)|].
  intros k l i j Hk Hl Hi Hj. rewrite <- D3, <- D4. apply (wf_Ps0 ps' W2); rewrite ?D1, ?D2, ?D3, ?D4, ?(wf_nx ps W); lia.
Qed.

(** without rounding errors the prediction is exact *)
Lemma growth_0 k : growth 0 k = 0.
Proof.
  unfold growth. assert (E : Qcpower (1 + 0) k = 1); [|rewrite E; ring].
  induction k as [|k IH]; [reflexivity|]. cbn [Qcpower]. rewrite IH. ring.
Qed.
Theorem C58_exact : forall k ps x U X, predicts 0 k ps x U X ->
  forall t i, (t <= nrUStep ps)%nat -> (i < xDim ps)%nat -> vget X (t * xDim ps + i)%nat = state_of ps x U t i.
Proof.
  intros k ps x U X [_ H] t i Ht Hi. specialize (H t i Ht Hi). rewrite growth_0, Qcmult_0_l in H.
  apply Qcabs_Qcle_condition in H. destruct H as [H1 H2].
  apply Qcle_antisym; revert H1 H2; generalize (vget X (t * xDim ps + i)), (state_of ps x U t i); intros a b; qc_lra.
Qed.
Theorem C58_exact_arithmetic : accurate 0 exactly.
Proof.
  split; [apply Qcle_refl|]. intros t cs ps. exists (map (fun p => fst p * snd p) ps). split.
  - induction ps as [|p ps IH]; constructor; [|exact IH]. apply within_self. apply Qcle_refl.
  - unfold exactly. generalize (cs ++ map (fun p => fst p * snd p) ps)%list. clear.
    intro l. induction l as [|x l IH]; [constructor|]. cbn [fold_right]. destruct l as [|y l].
    + cbn [fold_right]. rewrite Qcplus_0_r. constructor.
    + apply (add_two 0 (x :: y :: l) (x :: nil) (y :: l) x (fold_right Qcplus 0 (y :: l)));
        [apply Permutation_refl|discriminate|discriminate|constructor|exact IH|apply within_self; apply Qcle_refl].
Qed.

(** double precision, with a state matrix whose entries are not exact: x_2 is off, within the bound *)
Definition tenth : Qc := round64 (Q2Qc (1 # 10)).
Definition fA : mx := Mx 1 1 (fun _ _ => tenth).
Definition fB : mx := Mx 1 1 (fun _ _ => tenth).
Definition fd : vec Qc := Vec 1 (fun _ => tenth).
Definition qlt (a b : Qc) : bool := negb (Qle_bool (this b) (this a)).
Definition C58_check (F : arith) : bool :=
  match ps_new fA fB fd (vlit (3 :: nil)%Z) 3 with
  | Ok ps1 =>
      match f_ps_run F ps1 (PUpdate :: PXInit (vlit (7 :: nil)%Z) :: nil) with
      | Some ps =>
          match f_updateSystem F ps with
          | Some ps' =>
              match f_preview F ps' (x0 ps') (vlit (1 :: 2 :: 3 :: nil)%Z) with
              | Some X =>
                  let xs := vget (x0 ps') in let U := vget (vlit (1 :: 2 :: 3 :: nil)%Z) in
                  let err t := Qcabs (vget X t - state_of ps xs U t 0%nat) in
                  qlt 0 (err 2%nat) && qlt 0 (err 3%nat) &&
                  forallb (fun t => Qle_bool (this (err t)) (this (growth u64 9 * size_of ps xs U t 0%nat)))
                    (0 :: 1 :: 2 :: 3 :: nil)%nat
              | None => false
              end
          | None => false
          end
      | None => false
      end
  | _ => false
  end.
Example C58_example : C58_check arith64 = true /\ C58_check arith64_fma = true.
Proof. split; vm_compute; reflexivity. Qed.
Example C58_hypotheses :
  match ps_new fA fB fd (vlit (3 :: nil)%Z) 3 with
  | Ok ps1 => f_hist_ok arith64 ps1 (PUpdate :: PXInit (vlit (7 :: nil)%Z) :: nil)
  | _ => False end.
Proof.
  destruct (ps_new fA fB fd (vlit (3 :: nil)%Z) 3) as [ps1|e ps1|] eqn:E; [|discriminate E|discriminate E].
  pose proof (system_inv _ _ _ _ _ _ _ E) as [W X]. cbn [f_hist_ok ps_op_ok]. split; [exact I|].
  cbn [f_ps_step]. destruct (P_any arith64 ps1 W) as [ps' [E2 [_ [_ [_ [_ [D3 _]]]]]]]. rewrite E2. cbn [of_opt ps_step ps_op_ok].
  split; [|exact I]. rewrite D3. injection E as <-. reflexivity.
Qed.
Print Assumptions C58_prediction.
Print Assumptions C58_any_arithmetic.
Print Assumptions C58_exact.
Print Assumptions C58_exact_arithmetic.
Print Assumptions arith64_accurate.
Print Assumptions arith64_fma_accurate.

(** ** C59: the rows of the constraints *)
(** the rows handed to the solver, and those of the controller with a free initial state *)
Definition lhs (ps : psys) (c : constr) (U : nat -> Qc) (r : nat) : Qc := apply (fullUDim ps) (at_ (cA c)) U r.
Definition lhs_ext (ps : psys) (c : constr) (x U : nat -> Qc) (r : nat) : Qc :=
  apply (xDim ps) (at_ (cY c)) x r + apply (fullUDim ps) (at_ (cA c)) U r.

Lemma f_eqineq_rows u F j ps0 pss ps c0 c1 : accurate u F -> fresh_constr c0 -> ck c0 <> KCtrl -> ck c0 <> KCtrlB ->
  initializeConstraint j ps0 c0 = Ok c1 -> f_solves_with F ps0 pss ps ->
  exists c2, f_c_updates F (pss ++ (ps :: nil)) c1 = Some c2 /\ rows_sized ps c2 /\ nrConstr c2 = nrConstr c1 /\
    constraintType c2 = constraintType c0 /\ f_rows_as u ps c1 c2 /\ ps_wf ps /\ same_dims ps ps0.
Proof.
  intros Ac Fr N1 N2 H S. destruct (init_keeps _ _ _ _ H) as [K1 [I1 _]].
  assert (Sh : c_shape ps0 c1).
  { eapply init_shape; [exact H| |]; destruct Fr; try reflexivity; try discriminate. intros _. apply mkTrajB_lines. }
  destruct (f_updates_ok u F ps0 pss ps c1 Ac ltac:(congruence) ltac:(congruence) Sh S) as [c2 [E [O [S2 M]]]].
  assert (K2 : ck c2 = ck c0) by (etransitivity; [apply O|exact K1]).
  assert (I2 : isIneq c2 = isIneq c0) by (etransitivity; [apply O|exact I1]).
  exists c2. split; [exact E|]. split; [apply shape_sized; [exact S2|congruence]|]. split; [apply O|].
  split; [unfold constraintType; rewrite K2, I2; reflexivity|]. split; [exact M|].
  apply Forall_app in S. destruct S as [_ S]. inversion S as [|? ? [C D] _]; subst.
  split; [apply (computed_inv F ps C)|exact D].
Qed.

Theorem C59_trajectory_constraint : forall u F j E f ineq ps0 pss ps c1, accurate u F ->
  initializeConstraint j ps0 (mkTraj E f ineq) = Ok c1 -> f_solves_with F ps0 pss ps ->
  exists c2, f_c_updates F (pss ++ (ps :: nil)) c1 = Some c2 /\ rows_sized ps c2 /\
    constraintType c2 = (if ineq then InequalityConstraint else EqualityConstraint) /\
    (forall U, traj_rounded u ps E f (vget (x0 ps)) U (lhs ps c2 U) (vget (cb c2))) /\
    (forall x U, traj_rounded u ps E f x U (lhs_ext ps c2 x U) (vget (cz c2))).
Proof.
  intros u F j E f ineq ps0 pss ps c1 Ac H S.
  destruct (f_eqineq_rows u F j ps0 pss ps _ c1 Ac (fresh_traj E f ineq) ltac:(discriminate) ltac:(discriminate) H S)
    as [c2 [H1 [H2 [H3 [H4 [M [W D]]]]]]].
  exists c2. split; [exact H1|]. split; [exact H2|]. split; [exact H4|]. split.
  - intros U. eapply (traj_rounded_ok u j ps0 ps D); [exact H|]. intros r Hr. apply (M r Hr).
  - intros x U. eapply (traj_rounded_ok u j ps0 ps D); [exact H|]. intros r Hr. apply (M r Hr).
Qed.

Theorem C59_mixed_constraint : forall u F j E G f ineq ps0 pss ps c1, accurate u F ->
  initializeConstraint j ps0 (mkMixed E G f ineq) = Ok c1 -> f_solves_with F ps0 pss ps ->
  exists c2, f_c_updates F (pss ++ (ps :: nil)) c1 = Some c2 /\ rows_sized ps c2 /\
    constraintType c2 = (if ineq then InequalityConstraint else EqualityConstraint) /\
    (forall U, mixed_rounded u ps E G f (vget (x0 ps)) U (lhs ps c2 U) (vget (cb c2))) /\
    (forall x U, mixed_rounded u ps E G f x U (lhs_ext ps c2 x U) (vget (cz c2))).
Proof.
  intros u F j E G f ineq ps0 pss ps c1 Ac H S.
  destruct (f_eqineq_rows u F j ps0 pss ps _ c1 Ac (fresh_mixed E G f ineq) ltac:(discriminate) ltac:(discriminate) H S)
    as [c2 [H1 [H2 [H3 [H4 [M [W D]]]]]]].
  exists c2. split; [exact H1|]. split; [exact H2|]. split; [exact H4|]. split.
  - intros U. eapply (mixed_rounded_ok u j ps0 ps D); [exact H|]. intros r Hr. apply (M r Hr).
  - intros x U. eapply (mixed_rounded_ok u j ps0 ps D); [exact H|]. intros r Hr. apply (M r Hr).
Qed.

(** the rows of C10 (which reverse the lower bounds) *)
Theorem C59_trajectory_bound : forall u F j lower upper ps0 pss ps c1, accurate u F ->
  initializeConstraint j ps0 (mkTrajB lower upper) = Ok c1 -> f_solves_with F ps0 pss ps ->
  exists c2, f_c_updates F (pss ++ (ps :: nil)) c1 = Some c2 /\ rows_sized ps c2 /\
    constraintType c2 = InequalityConstraint /\
    (forall U, trajB_rounded u ps lower upper (vget (x0 ps)) U (nrConstr c2) (lhs ps c2 U) (vget (cb c2))) /\
    (forall x U, trajB_rounded u ps lower upper x U (nrConstr c2) (lhs_ext ps c2 x U) (vget (cz c2))).
Proof.
  intros u F j lo up ps0 pss ps c1 Ac H S.
  destruct (f_eqineq_rows u F j ps0 pss ps _ c1 Ac (fresh_trajB lo up) ltac:(discriminate) ltac:(discriminate) H S)
    as [c2 [H1 [H2 [H3 [H4 [M [W D]]]]]]].
  exists c2. split; [exact H1|]. split; [exact H2|]. split; [exact H4|]. rewrite H3. split.
  - intros U. eapply (trajB_rounded_ok u j ps0 ps D); [exact W|exact H|]. intros r Hr. apply (M r Hr).
  - intros x U. eapply (trajB_rounded_ok u j ps0 ps D); [exact W|exact H|]. intros r Hr. apply (M r Hr).
Qed.

(** the constraints on the control alone are not rounded, whatever the arithmetic *)
Lemma ctrl_update_dims p q c : same_dims p q -> ctrl_update p c = ctrl_update q c.
Proof.
  intros [H1 [H2 [H3 [H4 [H5 H6]]]]]. unfold ctrl_update. rewrite H3. destruct (fullSizeEntry c); [reflexivity|].
  unfold ctrl_step. rewrite H2. reflexivity.
Qed.
Lemma ctrlB_update_dims p q c : same_dims p q -> ctrlB_update p c = ctrlB_update q c.
Proof.
  intros [H1 [H2 [H3 [H4 [H5 H6]]]]]. unfold ctrlB_update. rewrite H3. destruct (fullSizeEntry c); [reflexivity|].
  unfold ctrlB_step. rewrite H2. reflexivity.
Qed.
Lemma same_dims_trans p q r : same_dims p q -> same_dims q r -> same_dims p r.
Proof. unfold same_dims. intuition congruence. Qed.
Lemma ctrl_kind_kept p c c' : ck c = KCtrl \/ ck c = KCtrlB -> c_update p c = Some c' -> ck c' = ck c.
Proof.
  unfold c_update. intros [K|K]; rewrite K; unfold ctrl_update, ctrlB_update.
  - destruct (fullSizeEntry c); [intro E; injection E as <-; exact K|].
    destruct (for_ _ _ _ _) as [[A b]|]; cbn [obind]; [intro E; injection E as <-; exact K|discriminate].
  - destruct (fullSizeEntry c); [intro E; injection E as <-; exact K|].
    destruct (for_ _ _ _ _) as [[A b]|]; cbn [obind]; [intro E; injection E as <-; exact K|discriminate].
Qed.
Lemma f_ctrl_updates F : forall l l' c, ck c = KCtrl \/ ck c = KCtrlB -> Forall2 same_dims l l' ->
  f_c_updates F l c = c_updates l' c.
Proof.
  intros l l' c K H. revert c K. induction H as [|p q l l' D H IH]; intros c K; [reflexivity|].
  cbn [f_c_updates c_updates]. assert (E : f_c_update F p c = c_update q c).
  { unfold f_c_update, c_update. destruct K as [K|K]; rewrite K; [apply ctrl_update_dims|apply ctrlB_update_dims]; exact D. }
  rewrite E. destruct (c_update q c) as [c'|] eqn:Ec; cbn [obind]; [|reflexivity].
  apply IH. rewrite (ctrl_kind_kept q c c' K Ec). exact K.
Qed.
Lemma twins F ps0 l : Forall (fun p => computed F p /\ same_dims p ps0) l ->
  exists l', Forall2 same_dims l l' /\ Forall (fun p => ready p /\ same_dims p ps0) l'.
Proof.
  induction 1 as [|p l [C D] _ [l' [H1 H2]]]; [exists nil; split; constructor|].
  destruct (computed_twin F p C) as [p' [R D']]. exists (p' :: l')%list. split.
  - constructor; [apply same_dims_sym; exact D'|exact H1].
  - constructor; [split; [exact R|eapply same_dims_trans; eassumption]|exact H2].
Qed.
Lemma twins_last F ps0 pss ps : f_solves_with F ps0 pss ps ->
  exists pss' ps', Forall2 same_dims (pss ++ (ps :: nil)) (pss' ++ (ps' :: nil)) /\ solves_with ps0 pss' ps' /\ same_dims ps ps'.
Proof.
  intro S. destruct (twins F ps0 _ S) as [l' [H1 H2]].
  apply Forall2_app_inv_l in H1. destruct H1 as [pss' [t [H1 [H3 ->]]]].
  inversion H3 as [|? ps' ? t' D Hn]; subst. inversion Hn; subst.
  exists pss', ps'. split; [apply Forall2_app; [exact H1|constructor; [exact D|constructor]]|]. split; [exact H2|exact D].
Qed.

Theorem C59_control_constraint : forall F j G f ineq ps0 pss ps c1,
  initializeConstraint j ps0 (mkCtrl G f ineq) = Ok c1 -> f_solves_with F ps0 pss ps ->
  exists c2, f_c_updates F (pss ++ (ps :: nil)) c1 = Some c2 /\ rows_sized ps c2 /\
    forall U, rows_hold ineq (nrConstr c2) (fullUDim ps) (at_ (cA c2)) (vget (cb c2)) U <-> ctrl_means ps G f ineq U.
Proof.
  intros F j G f ineq ps0 pss ps c1 H S. destruct (twins_last F ps0 pss ps S) as [pss' [ps' [T [S' D]]]].
  destruct (C08_control_constraint j G f ineq ps0 pss' ps' c1 H S') as [c2 [E [R [_ M]]]].
  exists c2. split; [rewrite (f_ctrl_updates F _ (pss' ++ (ps' :: nil)) c1); [exact E| |exact T]|].
  - left. destruct (init_keeps _ _ _ _ H) as [K _]. exact K.
  - destruct D as [D1 [D2 [D3 [D4 [D5 D6]]]]]. unfold rows_sized, ctrl_means in *. rewrite D1, D2, D3, D6. split; [exact R|exact M].
Qed.
Theorem C59_control_bound : forall F j lower upper ps0 pss ps c1,
  initializeConstraint j ps0 (mkCtrlB lower upper) = Ok c1 -> f_solves_with F ps0 pss ps ->
  exists c2, f_c_updates F (pss ++ (ps :: nil)) c1 = Some c2 /\
    forall U, within_bounds (fullUDim ps) (vget (clb c2)) (vget (cub c2)) U <-> ctrl_between ps lower upper U.
Proof.
  intros F j lo up ps0 pss ps c1 H S. destruct (twins_last F ps0 pss ps S) as [pss' [ps' [T [S' D]]]].
  destruct (C11_control_bound j lo up ps0 pss' ps' c1 H S') as [c2 [E [_ [_ [_ [_ [_ M]]]]]]].
  exists c2. split; [rewrite (f_ctrl_updates F _ (pss' ++ (ps' :: nil)) c1); [exact E| |exact T]|].
  - right. destruct (init_keeps _ _ _ _ H) as [K _]. exact K.
  - destruct D as [D1 [D2 [D3 [D4 [D5 D6]]]]]. unfold ctrl_between in *. rewrite D2, D3, D6. exact M.
Qed.

(** a control meeting a computed row up to [tol] meets the constraint up to [tol] and the rounding errors *)
Theorem C59_met : forall u k l b lhs rhs size tol ineq, row_error u k l b lhs rhs size -> meets tol ineq l b ->
  meets (tol + growth u k * (size + ext_abs rhs)) ineq lhs rhs.
Proof. exact row_error_meets. Qed.
(** a per-step inequality E x_k <= f met by a solver up to [tol] *)
Theorem C59_solution : forall u F j E f ps0 pss ps c1 tol U, accurate u F ->
  initializeConstraint j ps0 (mkTraj E f true) = Ok c1 -> f_solves_with F ps0 pss ps -> cols E = xDim ps ->
  exists c2, f_c_updates F (pss ++ (ps :: nil)) c1 = Some c2 /\
    ((forall r, (r < nrConstr c2)%nat -> meets tol true (lhs ps c2 U r) (vget (cb c2) r)) ->
     forall k i, (k < nrXStep ps)%nat -> (i < rows E)%nat ->
       meets (tol + growth u (nrUStep ps * (xDim ps + 1) + xDim ps + 1) *
                    (apply (xDim ps) (mabs (at_ E)) (size_of ps (vget (x0 ps)) U k) i + ext_abs (vget f i)))
             true (apply (xDim ps) (at_ E) (state_of ps (vget (x0 ps)) U k) i) (vget f i)).
Proof.
  intros u F j E f ps0 pss ps c1 tol U Ac H S HE.
  destruct (C59_trajectory_constraint u F j E f true ps0 pss ps c1 Ac H S) as [c2 [E2 [_ [_ [M _]]]]].
  destruct (f_eqineq_rows u F j ps0 pss ps _ c1 Ac (fresh_traj E f true) ltac:(discriminate) ltac:(discriminate) H S)
    as [c2' [H1 [_ [H3 [_ [_ [_ D]]]]]]]. rewrite E2 in H1. injection H1 as <-.
  exists c2. split; [exact E2|]. intros T k i Hk Hi. specialize (M U). unfold traj_rounded in M.
  rewrite HE, Nat.eqb_refl in M. eapply C59_met; [apply M; assumption|]. apply T. rewrite H3.
  apply init_keeps in H. unfold init_kept in H. cbn in H. destruct H as [_ [_ [_ [_ [_ [_ [_ [_ [Hn _]]]]]]]]].
  destruct D as [D1 [D2 [D3 [D4 _]]]]. rewrite Hn, <- D1, <- D4, HE, Nat.eqb_refl. nia.
Qed.

(** a computed system, for the examples *)
Definition fps (F : arith) : option psys :=
  match ps_new fA fB fd (vlit (3 :: nil)%Z) 3 with Ok p1 => f_updateSystem F p1 | _ => None end.
Lemma fps_computed F p : fps F = Some p -> computed F p.
Proof.
  unfold fps. intro E. destruct (ps_new fA fB fd (vlit (3 :: nil)%Z) 3) as [p1|e p1|] eqn:N; [|discriminate E|discriminate E].
  pose proof (system_inv _ _ _ _ _ _ _ N) as [W X]. destruct (P_any F p1 W) as [q [E2 [_ [_ [_ [_ [D3 [_ [_ [_ [D7 _]]]]]]]]]]].
  exists fA, fB, fd, (vlit (3 :: nil)%Z), 3%Z, p1, nil, p1, q, (x0 q).
  split; [exact N|]. split; [exact I|]. split; [reflexivity|]. split; [exact E2|]. split; [congruence|].
  rewrite E2 in E. injection E as <-. unfold ps_xInit. destruct q. reflexivity.
Qed.
(** the row for x_3 is off, the bound holds, and the hypotheses are met *)
Definition C59_E : mx := Mx 1 1 (fun _ _ => tenth).
Definition C59_f : vec ext := Vec 1 (fun _ => Fin tenth).
Definition C59_check (F : arith) : bool :=
  match fps F with
  | Some ps =>
      match initializeConstraint j0 ps (mkTraj C59_E C59_f true) with
      | Ok c1 =>
          match f_c_updates F (ps :: ps :: nil) c1 with
          | Some c2 =>
              let U := vget (vlit (1 :: 2 :: 3 :: nil)%Z) in let x := vget (x0 ps) in
              let q r := match vget (cb c2) r with Fin q => q | _ => 0 end in
              let err r := Qcabs (lhs ps c2 U r - q r - (tenth * state_of ps x U r 0%nat - tenth)) in
              Nat.eqb (nrConstr c2) 4 && qlt 0 (err 3%nat) &&
              forallb (fun r => Qle_bool (this (err r)) (this (growth u64 8 * (tenth * size_of ps x U r 0%nat + tenth))))
                (0 :: 1 :: 2 :: 3 :: nil)%nat
          | None => false
          end
      | _ => false
      end
  | None => false
  end.
Example C59_example : C59_check arith64 = true /\ C59_check arith64_fma = true.
Proof. split; vm_compute; reflexivity. Qed.
Example C59_hypotheses : forall p, fps arith64 = Some p -> f_solves_with arith64 p (p :: nil) p.
Proof. intros p H. apply fps_computed in H. repeat constructor; exact H. Qed.
Print Assumptions C59_trajectory_constraint.
Print Assumptions C59_mixed_constraint.
Print Assumptions C59_trajectory_bound.
Print Assumptions C59_control_constraint.
Print Assumptions C59_control_bound.
Print Assumptions C59_met.
Print Assumptions C59_solution.
