(** EndToEndRows.v -- what the rows and bounds of registered constraints mean, from the data the user gave. *)
From Verif Require Import Base Eigen Spec Preview SpecApi PreviewProofs AutoSpan AutoSpanProofs Constraints ConstraintProofs
  SpecConstraints ConstraintMeaning Checkers Properties_Constraints Costs SpecCosts CostProofs CostMeaning Controller Registry SpecController Assembly
  Results SpecProtocol Protocol Properties_Protocol SpecEndToEnd SpanData Properties_Registry EndToEnd.

Lemma fits_int_le k : fits_int k = true -> (Z.of_nat k <= 2147483647)%Z.
Proof. unfold fits_int, INT_MAX. intro H. apply Z.leb_le. exact H. Qed.
Lemma fresh_new d : fresh_constr (new_con d).
Proof. destruct d; constructor. Qed.

Section Rows.
Variable D : psys.

(** a registered constraint is as one built now from its data *)
Definition as_built (c c0 : constr) : Prop :=
  ck c0 = ck c /\ (ck c <> KCtrlB -> isIneq c0 = isIneq c) /\ nrConstr c0 = nrConstr c /\
  (forall ps r x U, c_lin ps c0 r x U = c_lin ps c r x U) /\ (forall ps r, c_rhs ps c0 r = c_rhs ps c r) /\
  (ck c = KCtrlB -> forall ps i, cb_lo ps c0 i = cb_lo ps c i /\ cb_up ps c0 i = cb_up ps c i).
Lemma inited_valid c : c_inited D c -> lines_fresh c ->
  valid_shape D (new_con (c_given c)) /\ row_count D (new_con (c_given c)) = nrConstr c.
Proof using.
  intros [Sh [En [Sp _]]] LF. unfold c_shape, c_entry, c_spanned, c_given, lines_fresh, valid_shape, row_count in *.
  destruct (ck c) eqn:Q; cbn.
  - destruct Sh as [_ [H1 H2]]. rewrite En in H2. destruct (Nat.eqb_spec (cols (cE c)) (xDim D)); cbn in H2; (split; [tauto|symmetry; tauto]).
  - destruct Sh as [Sz [_ H2]]. destruct Sz as [S1 [S2 [S3 _]]]. destruct (fullSizeEntry c) eqn:Fu; cbn.
    + specialize (En eq_refl). rewrite S2. destruct (Nat.eqb_spec (fullUDim D) (uDim D)); [congruence|]. split; [split; [congruence|tauto]|congruence].
    + destruct H2 as [H2 [H3 [H4 _]]]. rewrite H3, Nat.eqb_refl. split; [tauto|congruence].
  - destruct Sh as [_ [H1 [H2 H3]]]. rewrite En in H3.
    destruct (Nat.eqb_spec (cols (cE c)) (xDim D)); destruct (Nat.eqb_spec (cols (cG c)) (uDim D)); cbn in H3 |- *; (split; [|symmetry; tauto]); (do 2 (split; [congruence|])); tauto.
  - destruct (LF eq_refl) as [L1 [L2 L3]]. destruct Sh as [_ [H1 [_ [_ H2]]]]. rewrite En in H2. rewrite L2, L3 in H2.
    destruct (Nat.eqb_spec (vsize (clower c)) (xDim D)); cbn in H2; (split; [split; [congruence|tauto]|symmetry; tauto]).
  - destruct Sh as [_ [H1 [H2 [H3 H4]]]]. destruct (fullSizeEntry c) eqn:Fu; cbn.
    + split; [split; [congruence|right; congruence]|congruence].
    + destruct H4 as [H4 H5]. split; [split; [congruence|left; congruence]|congruence].
Qed.
Lemma kept_built c c0 : c_shape D c -> c_entry D c -> lines_fresh c -> init_kept D (new_con (c_given c)) c0 -> nrConstr c0 = nrConstr c ->
  as_built c c0.
Proof using.
  intros Sh En LF K Nr. unfold as_built. rewrite Nr.
  unfold c_shape, c_entry, lines_fresh, c_given in *.
  destruct (ck c) eqn:Q.
  - destruct K as [K1 [K2 [_ [_ [KE [Kf [_ [KF _]]]]]]]]. cbn [new_con mkTraj ck isIneq cE cf fullSizeEntry] in *.
    assert (EF : fullSizeEntry c0 = fullSizeEntry c) by (rewrite KF, En; destruct (Nat.eqb _ _); reflexivity).
    split; [exact K1|]. split; [intros _; exact K2|]. split; [reflexivity|].
    split; [intros ps r x U; unfold c_lin; rewrite K1, Q, EF, KE; reflexivity|]. split; [|discriminate].
    intros ps r. unfold c_rhs. rewrite K1, Q, EF, KE, Kf. reflexivity.
  - destruct Sh as [Sz [_ H2]]. destruct Sz as [S1 [S2 [S3 _]]]. destruct (fullSizeEntry c) eqn:Fu.
    + destruct K as [K1 [K2 [_ [_ [_ [KF [_ [KD _]]]]]]]]. cbn [new_con mkCtrl ck isIneq cG cf fullSizeEntry] in *.
      specialize (En eq_refl). rewrite S2 in KF, KD. destruct (Nat.eqb_spec (fullUDim D) (uDim D)) as [Z|_]; [congruence|]. destruct KD as [KA [Kb _]].
      split; [exact K1|]. split; [intros _; exact K2|]. split; [reflexivity|].
      split; [intros ps r x U; unfold c_lin; rewrite K1, Q, KF, Fu, KA; reflexivity|]. split; [|discriminate].
      intros ps r. unfold c_rhs. rewrite K1, Q, KF, Fu, Kb. reflexivity.
    + destruct K as [K1 [K2 [_ [_ [_ [KF [_ [KD _]]]]]]]]. cbn [new_con mkCtrl ck isIneq cG cf fullSizeEntry] in *.
      destruct H2 as [H2 [H3 _]]. rewrite H3, Nat.eqb_refl in KF, KD. destruct KD as [KA Kb].
      split; [exact K1|]. split; [intros _; exact K2|]. split; [reflexivity|].
      split; [intros ps r x U; unfold c_lin; rewrite K1, Q, KF, Fu, KA; reflexivity|]. split; [|discriminate].
      intros ps r. unfold c_rhs. rewrite K1, Q, KF, Fu, Kb, KA. reflexivity.
  - destruct K as [K1 [K2 [_ [_ [KE [KG [Kf [_ [_ [KF _]]]]]]]]]]. cbn [new_con mkMixed ck isIneq cE cG cf fullSizeEntry] in *.
    assert (EF : fullSizeEntry c0 = fullSizeEntry c) by (rewrite KF, En; destruct (Nat.eqb _ _ && Nat.eqb _ _); reflexivity).
    split; [exact K1|]. split; [intros _; exact K2|]. split; [reflexivity|].
    split; [intros ps r x U; unfold c_lin; rewrite K1, Q, EF, KE, KG; reflexivity|]. split; [|discriminate].
    intros ps r. unfold c_rhs. rewrite K1, Q, EF, KE, Kf. reflexivity.
  - destruct (LF eq_refl) as [L1 [L2 L3]].
    destruct K as [K1 [K2 [Kl [Ku [KE [Kf [_ [KF _]]]]]]]]. cbn [new_con mkTrajB ck isIneq clower cupper lowerLines upperLines fullSizeEntry] in *.
    assert (EF : fullSizeEntry c0 = fullSizeEntry c) by (rewrite KF, En; destruct (Nat.eqb _ _); reflexivity).
    rewrite <- L2 in Kl. rewrite <- L3 in Ku.
    split; [exact K1|]. split; [intros _; congruence|]. split; [reflexivity|].
    split; [intros ps r x U; unfold c_lin, tb_steps; rewrite K1, Q, EF, Kl, Ku; reflexivity|]. split; [|discriminate].
    intros ps r. unfold c_rhs, tb_steps. rewrite K1, Q, EF, Kl, Ku, KE, Kf. reflexivity.
  - destruct Sh as [_ [H1 [H2 [H3 H4]]]]. destruct (fullSizeEntry c) eqn:Fu.
    + destruct K as [K1 [K2 [_ [_ [_ [KF [_ [KD _]]]]]]]]. cbn [new_con mkCtrlB ck isIneq clower cupper fullSizeEntry] in *.
      specialize (En eq_refl). rewrite H2 in KF, KD. destruct (Nat.eqb_spec (fullUDim D) (uDim D)) as [Z|_]; [congruence|]. destruct KD as [KA Kb].
      split; [exact K1|]. split; [intro Z; congruence|]. split; [reflexivity|].
      split; [intros ps r x U; unfold c_lin; rewrite K1, Q; reflexivity|].
      split; [intros ps r; unfold c_rhs; rewrite K1, Q; reflexivity|].
      intros _ ps i. unfold cb_lo, cb_up. rewrite KF, Fu, KA, Kb. auto.
    + destruct K as [K1 [K2 [_ [_ [_ [KF [_ [KD _]]]]]]]]. cbn [new_con mkCtrlB ck isIneq clower cupper fullSizeEntry] in *.
      destruct H4 as [H4 _]. rewrite H4, Nat.eqb_refl in KF, KD. destruct KD as [KA Kb].
      split; [exact K1|]. split; [intro Z; congruence|]. split; [reflexivity|].
      split; [intros ps r x U; unfold c_lin; rewrite K1, Q; reflexivity|].
      split; [intros ps r; unfold c_rhs; rewrite K1, Q; reflexivity|].
      intros _ ps i. unfold cb_lo, cb_up. rewrite KF, Fu, KA, Kb. auto.
Qed.
Lemma inited_built c : c_inited D c -> lines_fresh c ->
  exists c0, initializeConstraint j0 D (new_con (c_given c)) = Ok c0 /\ as_built c c0.
Proof using.
  intros I LF. destruct (inited_valid c I LF) as [V RC]. destruct I as [Sh [En [_ Fi]]].
  destruct (C13_initialize j0 D (new_con (c_given c)) (fresh_new _)) as [H _].
  { rewrite RC. apply fits_int_le. exact Fi. }
  destruct (H V) as [c0 [E0 [Nr _]]]. exists c0. split; [exact E0|]. rewrite RC in Nr.
  apply kept_built; try assumption. eapply init_keeps; exact E0.
Qed.

(** the rows of an updated constraint hold exactly when what it imposes holds *)
Lemma inited_row_means ps c x U : ready ps -> same_dims ps D -> c_inited D c -> lines_fresh c -> ck c <> KCtrlB ->
  (row_means ps c x U <-> imposes ps (c_given c) x U).
Proof using.
  intros R SD I LF NB. destruct (inited_built c I LF) as [c0 [E0 [A1 [A2 [A3 [A4 [A5 _]]]]]]].
  assert (RM : row_means ps c x U <-> row_means ps c0 x U).
  { unfold row_means. rewrite A3, (A2 NB). split; intros H r Hr; specialize (H r Hr); rewrite A4, A5 in *; exact H. }
  rewrite RM. destruct (c_given c) as [E f i|G f i|E G f i|lo up|lo up] eqn:Q; cbn [new_con] in E0; cbn [imposes means].
  - eapply traj_row_means; eassumption.
  - eapply ctrl_row_means; eassumption.
  - eapply mixed_row_means; eassumption.
  - eapply trajB_row_means; eassumption.
  - exfalso. apply NB. unfold c_given in Q. destruct (ck c); try discriminate Q; destruct (fullSizeEntry c); discriminate Q || reflexivity.
Qed.
Lemma inited_bounds_mean ps c c' x U : ready ps -> same_dims ps D -> c_inited D c -> lines_fresh c -> ck c = KCtrlB -> rows_as ps c c' ->
  (within_bounds (fullUDim ps) (vget (clb c')) (vget (cub c')) U <-> imposes ps (c_given c) x U).
Proof using.
  intros R SD I LF KB RA. destruct (inited_built c I LF) as [c0 [E0 [A1 [_ [A3 [_ [_ A6]]]]]]].
  assert (RA0 : rows_as ps c0 c').
  { split; [intro NB; exfalso; apply NB; congruence|]. intros _ i Hi. destruct (proj2 RA KB i Hi) as [H1 H2]. destruct (A6 KB ps i) as [-> ->]. auto. }
  destruct (c_given c) as [E f i|G f i|E G f i|lo up|lo up] eqn:Q;
    try (exfalso; unfold c_given in Q; rewrite KB in Q; destruct (fullSizeEntry c); discriminate Q).
  cbn [imposes means]. eapply ctrlB_bounds_mean; eassumption.
Qed.
End Rows.

(** ** Stacked rows *)
Lemma find_row nr : forall l k, k < rows_of nr l -> exists l1 i l2 r, l = l1 ++ i :: l2 /\ r < nr i /\ k = rows_of nr l1 + r.
Proof.
  induction l as [|x t IH]; intros k H; [cbn in H; lia|]. rewrite rows_of_cons in H.
  destruct (Nat.lt_ge_cases k (nr x)) as [L|G].
  - exists [], x, t, k. cbn. auto.
  - destruct (IH (k - nr x)) as [l1 [i [l2 [r [E [Hr Ek]]]]]]; [lia|]. exists (x :: l1), i, l2, r. rewrite E. split; [reflexivity|]. split; [exact Hr|].
    rewrite rows_of_cons. lia.
Qed.
Lemma stacked_holds ineq nr row rhs k l A b U : stacked nr row rhs k l A b ->
  (rows_hold ineq (rows A) (cols A) (at_ A) (vget b) U <-> forall i, In i l -> rows_hold ineq (nr i) k (row i) (rhs i) U).
Proof.
  intros [H1 [H2 [H3 H4]]]. unfold rows_hold. rewrite H1, H2. split.
  - intros H i Hi r Hr. apply in_split in Hi as [l1 [l2 E]]. destruct (H4 l1 i l2 E r Hr) as [G1 G2].
    assert (Lt : rows_of nr l1 + r < rows_of nr l) by (rewrite E, rows_of_app, rows_of_cons; lia).
    specialize (H _ Lt). rewrite G2 in H. unfold apply in *. rewrite (sum_ext _ _ (fun j => row i r j * U j)%Qc) in H by (intros j Hj; rewrite (G1 j Hj); reflexivity). exact H.
  - intros H q Hq. destruct (find_row nr l q Hq) as [l1 [i [l2 [r [E [Hr ->]]]]]]. destruct (H4 l1 i l2 E r Hr) as [G1 G2]. rewrite G2.
    unfold apply. rewrite (sum_ext _ _ (fun j => row i r j * U j)%Qc) by (intros j Hj; rewrite (G1 j Hj); reflexivity).
    apply H; [rewrite E; apply in_app_iff; right; left; reflexivity|exact Hr].
Qed.

(** ** Bounds *)
Lemma stale_snoc o : forall h w b w', run w h = Some w' ->
  stale w b (h ++ [o]) = stale_op w' (stale w b h) o.
Proof.
  induction h as [|x t IH]; intros w b w' R; cbn [app stale run] in *.
  - injection R as <-. destruct (step w o); reflexivity.
  - destruct (step w x) as [v|y v|]; [| |discriminate]; apply IH; exact R.
Qed.
Definition free_bounds (m : lmpc) : Prop :=
  (forall i, i < vsize (qlb (m_qp m)) -> vget (qlb (m_qp m)) i = no_lower) /\
  (forall i, i < vsize (qub (m_qp m)) -> vget (qub (m_qp m)) i = no_upper).
Lemma initController_free j w p w' : initializeController j w p = Some w' -> free_bounds (ctl w').
Proof.
  unfold initializeController, clearConstraintMatrices. destruct (fits_int _); [|discriminate]. cbn [obind]. intro H. injection H as <-.
  split; intros i _; reflexivity.
Qed.
Lemma default_free s r : free_bounds (lmpc_default s r).
Proof. split; cbn; intros; lia. Qed.
Lemma construct_free j k r w w' : construct j k r w = Some w' -> free_bounds (ctl w').
Proof.
  destruct k; cbn [construct]; intro H; try (injection H as <-; apply default_free); eapply initController_free; exact H.
Qed.
Lemma clearCons_free w w' : clearConstraints w = Some w' -> free_bounds (ctl w').
Proof.
  unfold clearConstraints, clearConstraintMatrices. destruct (m_ps (ctl w)); [|discriminate].
  destruct (fits_int _); [|discriminate]. cbn [obind]. intro H. injection H as <-. split; intros i _; reflexivity.
Qed.
Lemma solve_keeps_is e w b w' : solve e w = Some (b, w') -> m_is (ctl w') = m_is (ctl w) /\ m_ps (ctl w') = m_ps (ctl w).
Proof.
  intro H. destruct (solve_qp _ _ _ _ H) as [w1 [Eb [_ [_ [_ [-> [-> _]]]]]]]. apply build_data in Eb as [_ [_ [_ [-> [-> _]]]]]. auto.
Qed.

Lemma step_bounds w o w' : stepped w o w' ->
  match o with
  | OConstruct _ _ _ | OInitController _ _ | OClearCons => free_bounds (ctl w')
  | OSolve e => exists b, solve e w = Some (b, w')
  | _ => m_qp (ctl w') = m_qp (ctl w) /\ (m_is (ctl w') = None -> m_is (ctl w) = None)
  end.
Proof.
  intro H. unfold stepped, step in H. destruct o; unfold with_con, with_cost in H;
    try (repeat match type of H with context [if ?b then _ else _] => destruct b end;
         destruct H as [H|[? H]]; try discriminate H; injection H; intros; subst; (split; [reflexivity|exact (fun z => z)])).
  - destruct (ps_step (wps w p) o); cbn [out_map] in H; destruct H as [H|[? H]]; try discriminate H; injection H; intros; subst; (split; [reflexivity|exact (fun z => z)]).
  - destruct (0 <? hcon w i); [destruct (c_autoSpan j (wcon w i)); cbn [out_map] in H|]; destruct H as [H|[? H]]; try discriminate H; injection H; intros; subst; (split; [reflexivity|exact (fun z => z)]).
  - destruct (0 <? hcost w i); [destruct (k_autoSpan j (wcost w i)); cbn [out_map] in H|]; destruct H as [H|[? H]]; try discriminate H; injection H; intros; subst; (split; [reflexivity|exact (fun z => z)]).
  - destruct (0 <? hcost w i); [destruct (k_weights (wcost w i) v); cbn [out_map] in H|]; destruct H as [H|[? H]]; try discriminate H; injection H; intros; subst; (split; [reflexivity|exact (fun z => z)]).
  - unfold of_opt in H. destruct (construct j k r w) as [v|] eqn:E; destruct H as [H|[? H]]; try discriminate H. injection H as <-. eapply construct_free; exact E.
  - unfold of_opt in H. destruct (initializeController j w p) as [v|] eqn:E; destruct H as [H|[? H]]; try discriminate H. injection H as <-. eapply initController_free; exact E.
  - destruct (0 <? hcost w i); [|destruct H as [H|[? H]]; try discriminate H; injection H; intros; subst; (split; [reflexivity|exact (fun z => z)])].
    unfold addCost in H. destruct (m_ps (ctl w)); [|destruct H as [H|[? H]]; discriminate H].
    destruct (initializeCost _ _ _); destruct H as [H|[? H]]; try discriminate H; injection H; intros; subst; (split; [reflexivity|exact (fun z => z)]).
  - destruct (0 <? hcon w i); [|destruct H as [H|[? H]]; try discriminate H; injection H; intros; subst; (split; [reflexivity|exact (fun z => z)])].
    unfold addConstraint in H. destruct (m_ps (ctl w)); [|destruct H as [H|[? H]]; discriminate H].
    destruct (initializeConstraint _ _ _) as [c|e c|]; destruct H as [H|[? H]]; try discriminate H.
    + unfold of_opt in H. destruct (addConstraintByType _ _) as [v|] eqn:E; [|discriminate]. injection H as <-.
      unfold addConstraintByType in E. cbn in E. destruct (constraintType _); try (destruct (fits_int _); [|discriminate]); injection E as <-; (split; [reflexivity|exact (fun z => z)]).
    + unfold of_opt in H. destruct (addConstraintByType _ _); discriminate H.
    + injection H; intros; subst; (split; [reflexivity|exact (fun z => z)]).
  - destruct (0 <? hcost w i); destruct H as [H|[? H]]; try discriminate H; injection H; intros; subst; [|split; [reflexivity|exact (fun z => z)]].
    unfold removeCost. destruct (erase_first i (spCost (ctl w))); (split; [reflexivity|exact (fun z => z)]).
  - destruct (0 <? hcon w i); [|destruct H as [H|[? H]]; try discriminate H; injection H; intros; subst; (split; [reflexivity|exact (fun z => z)])].
    unfold of_opt in H. destruct (removeConstraint w i) as [v|] eqn:E; destruct H as [H|[? H]]; try discriminate H. injection H as <-.
    unfold removeConstraint in E. destruct (erase_first i (spC (ctl w))); [|injection E as <-; (split; [reflexivity|exact (fun z => z)])].
    destruct (constraintType _); (destruct (erase_first i _); [|discriminate]); cbn [obind] in E; injection E as <-; (split; [reflexivity|exact (fun z => z)]).
  - unfold of_opt in H. destruct (clearConstraints w) as [v|] eqn:E; destruct H as [H|[? H]]; try discriminate H. injection H as <-. eapply clearCons_free; exact E.
  - destruct (solve e w) as [[b v]|]; destruct H as [H|[? H]]; try discriminate H. injection H as <-. exists b. reflexivity.
  - destruct H as [H|[? H]]; try discriminate H. injection H as <-. unfold resetX0Cost. destruct (m_is (ctl w)) eqn:Ei; cbn; rewrite ?Ei; (split; [reflexivity|intro Z; discriminate Z || reflexivity]).
  - destruct H as [H|[? H]]; try discriminate H. injection H as <-. unfold resetX0Bounds. destruct (m_is (ctl w)) eqn:Ei; cbn; rewrite ?Ei; (split; [reflexivity|intro Z; discriminate Z || reflexivity]).
Qed.
