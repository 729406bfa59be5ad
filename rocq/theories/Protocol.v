(** Protocol.v -- no call of the documented protocol is undefined: invariant and proofs (C37). *)
From Verif Require Import Base Eigen Spec Preview SpecApi PreviewProofs AutoSpan AutoSpanProofs Constraints ConstraintProofs
  SpecConstraints ConstraintMeaning Costs CostProofs CostMeaning Properties_Costs Controller Registry SpecController Assembly Results SpecProtocol.

(** a preview system that has given dimensions *)
Definition dps (n m N : nat) : psys :=
  PS false N (N + 1) n m (n * (N + 1)) (m * N) (vconst n 0%Qc) (mzero n n) (mzero n m) (vconst n 0%Qc)
     (mzero (n * (N + 1)) n) (mzero (n * (N + 1)) (m * N)) (vconst (n * (N + 1)) 0%Qc).

Ltac case_eqb H := let E := fresh "Eq" in match type of H with context [Nat.eqb ?a ?b] => destruct (Nat.eqb a b) eqn:E end.

(** ** Constraints *)

Definition c_virgin (c : constr) : Prop :=
  fullSizeEntry c = false /\ hasBeenInit c = false /\ (ck c = KTrajB -> lines_ok c) /\
  rows (cA c) = vsize (cb c) /\ vsize (clb c) = vsize (cub c).
(** autoSpan has nothing to do *)
Definition c_spanned (c : constr) : Prop :=
  match ck c with
  | KTraj => rows (cE c) = vsize (cf c)
  | KCtrl => rows (cG c) = vsize (cf c)
  | KMixed => rows (cE c) = vsize (cf c) /\ rows (cG c) = vsize (cf c)
  | KTrajB | KCtrlB => vsize (clower c) = vsize (cupper c)
  end.
(** the entry kind is the one the sizes tell *)
Definition c_entry (D : psys) (c : constr) : Prop :=
  match ck c with
  | KTraj => fullSizeEntry c = negb (Nat.eqb (cols (cE c)) (xDim D))
  | KMixed => fullSizeEntry c = negb (Nat.eqb (cols (cE c)) (xDim D) && Nat.eqb (cols (cG c)) (uDim D))
  | KTrajB => fullSizeEntry c = negb (Nat.eqb (vsize (clower c)) (xDim D))
  | KCtrl | KCtrlB => fullSizeEntry c = true -> uDim D <> fullUDim D
  end.
Definition c_inited (D : psys) (c : constr) : Prop :=
  c_shape D c /\ c_entry D c /\ c_spanned c /\ fits_int (nrConstr c) = true.
Definition con_ok (D : psys) (c : constr) : Prop := c_virgin c \/ c_inited D c.

Lemma init_dims j p q c : same_dims p q -> initializeConstraint j p c = initializeConstraint j q c.
Proof.
  intros [E1 [E2 [E3 [E4 [E5 E6]]]]].
  unfold initializeConstraint, traj_init, ctrl_init, mixed_init, trajB_init, ctrlB_init, resize_rows.
  rewrite E1, E2, E3, E4, E5, E6. reflexivity.
Qed.
Lemma row_count_dims p q c : same_dims p q -> row_count p c = row_count q c.
Proof.
  intros [E1 [E2 [E3 [E4 [E5 E6]]]]]. unfold row_count. rewrite E1, E2, E3, E4, E6. reflexivity.
Qed.

Lemma virgin_init j D c : c_virgin c -> fits_int (row_count D c) = true ->
  match initializeConstraint j D c with
  | Ok c' => c_inited D c' /\ nrConstr c' = row_count D c /\ same_kind c c'
  | Throw e c' => c' = c
  | UB => False
  end.
Proof.
  intros [F [HB [HL [HA Hb]]]] Hf.
  destruct (initializeConstraint j D c) as [c'|e c'|] eqn:E.
  - pose proof (init_shape _ _ _ _ E F HL) as Sh. pose proof (init_kind _ _ _ _ E) as Kd.
    assert (nrConstr c' = row_count D c /\ c_entry D c' /\ c_spanned c') as [Hn [He Hs]].
    { unfold row_count, initializeConstraint, c_entry, c_spanned in *.
      destruct (ck c) eqn:K;
       [unfold traj_init in E|unfold ctrl_init in E|unfold mixed_init in E|unfold trajB_init in E|unfold ctrlB_init in E];
       cbv zeta in E.
      - destruct (Nat.eqb_spec (rows (cE c)) (vsize (cf c))) as [R|]; [|discriminate]. cbn [negb] in E.
        destruct (Nat.eqb (cols (cE c)) (xDim D)) eqn:C; [|destruct (Nat.eqb (cols (cE c)) (fullXDim D)); [|discriminate]];
        destruct (fits_int _); try discriminate; injection E as <-; cbn; rewrite K, C; auto.
      - rewrite HB in E. destruct (Nat.eqb_spec (rows (cG c)) (vsize (cf c))) as [R|]; [|discriminate]. cbn [negb] in E.
        destruct (Nat.eqb_spec (cols (cG c)) (uDim D)) as [C|C]; [|destruct (Nat.eqb_spec (cols (cG c)) (fullUDim D)); [|discriminate]];
        destruct (fits_int _); try discriminate; injection E as <-; cbn; rewrite K; (split; [|split]); auto; congruence.
      - destruct (Nat.eqb_spec (rows (cE c)) (vsize (cf c))) as [R|]; [|discriminate]. cbn [negb] in E.
        destruct (Nat.eqb_spec (rows (cG c)) (vsize (cf c))) as [R'|]; [|discriminate]. cbn [negb] in E.
        destruct (Nat.eqb (cols (cE c)) (xDim D) && Nat.eqb (cols (cG c)) (uDim D)) eqn:C;
        [|destruct (Nat.eqb (cols (cE c)) (fullXDim D) && _); [|discriminate]];
        destruct (fits_int _); try discriminate; injection E as <-; cbn; rewrite K, C; auto.
      - destruct (Nat.eqb_spec (vsize (clower c)) (vsize (cupper c))) as [R|]; [|discriminate]. cbn [negb] in E.
        destruct (Nat.eqb (vsize (clower c)) (xDim D)) eqn:C; [|destruct (Nat.eqb (vsize (clower c)) (fullXDim D)); [|discriminate]];
        destruct (fits_int _); try discriminate; injection E as <-; cbn; rewrite K, C; auto.
      - rewrite HB in E. destruct (Nat.eqb_spec (vsize (clower c)) (vsize (cupper c))) as [R|]; [|discriminate]. cbn [negb] in E.
        destruct (Nat.eqb_spec (vsize (clower c)) (uDim D)) as [C|C]; [|destruct (Nat.eqb_spec (vsize (clower c)) (fullUDim D)) as [C2|]; [|discriminate]];
        try (match type of E with context [fits_int ?x] => destruct (fits_int x); try discriminate end); injection E as <-; cbn; rewrite K; (split; [|split]); auto; congruence. }
    split; [|auto]. split; [exact Sh|]. split; [exact He|]. split; [exact Hs|]. rewrite Hn. exact Hf.
  - eapply init_throw; exact E.
  - unfold row_count, initializeConstraint in *.
    destruct (ck c) eqn:K;
     [unfold traj_init in E|unfold ctrl_init in E|unfold mixed_init in E|unfold trajB_init in E|unfold ctrlB_init in E];
     cbv zeta in E.
    + destruct (Nat.eqb_spec (rows (cE c)) (vsize (cf c))) as [R|]; [|discriminate]. cbn [negb] in E.
      destruct (Nat.eqb (cols (cE c)) (xDim D)) eqn:C; [|destruct (Nat.eqb (cols (cE c)) (fullXDim D)); [|discriminate]];
        rewrite Hf in E; discriminate.
    + rewrite HB in E. destruct (Nat.eqb_spec (rows (cG c)) (vsize (cf c))) as [R|]; [|discriminate]. cbn [negb] in E.
      destruct (Nat.eqb (cols (cG c)) (uDim D)) eqn:C; [|destruct (Nat.eqb (cols (cG c)) (fullUDim D)); [|discriminate]];
        rewrite Hf in E; discriminate.
    + destruct (Nat.eqb_spec (rows (cE c)) (vsize (cf c))) as [R|]; [|discriminate]. cbn [negb] in E.
      destruct (Nat.eqb_spec (rows (cG c)) (vsize (cf c))) as [R'|]; [|discriminate]. cbn [negb] in E.
      destruct (Nat.eqb (cols (cE c)) (xDim D) && Nat.eqb (cols (cG c)) (uDim D)) eqn:C;
        [|destruct (Nat.eqb (cols (cE c)) (fullXDim D) && _); [|discriminate]]; rewrite Hf in E; discriminate.
    + destruct (Nat.eqb_spec (vsize (clower c)) (vsize (cupper c))) as [R|]; [|discriminate]. cbn [negb] in E.
      destruct (Nat.eqb (vsize (clower c)) (xDim D)) eqn:C; [|destruct (Nat.eqb (vsize (clower c)) (fullXDim D)); [|discriminate]];
        rewrite Hf in E; discriminate.
    + rewrite HB in E. destruct (Nat.eqb_spec (vsize (clower c)) (vsize (cupper c))) as [R|]; [|discriminate]. cbn [negb] in E.
      destruct (Nat.eqb (vsize (clower c)) (uDim D)) eqn:C; [discriminate|].
      destruct (Nat.eqb_spec (vsize (clower c)) (fullUDim D)) as [C2|]; [|discriminate]. rewrite C2, Hf in E. discriminate.
Qed.

Lemma inited_reinit j D c : c_inited D c ->
  match initializeConstraint j D c with
  | Ok c' => c_inited D c' /\ nrConstr c' = nrConstr c /\ nrConstr c = row_count D c /\ same_kind c c'
  | Throw e c' => c' = c
  | UB => False
  end.
Proof.
  intros [Sh [He [Hs Hf]]]. unfold c_shape in Sh. unfold initializeConstraint, c_inited, c_shape, c_entry, c_spanned, row_count in *.
  destruct (ck c) eqn:K.
  - unfold traj_init. destruct Sh as [[Z1 [Z2 [Z3 [Z4 [Z5 Z6]]]]] [R Sh]]. rewrite R, Nat.eqb_refl. cbn [negb]. rewrite He in Sh.
    destruct (Nat.eqb (cols (cE c)) (xDim D)) eqn:C; cbn [negb] in Sh; destruct Sh as [S1 S2].
    + rewrite R in S2. rewrite <- S2, Hf. cbn. rewrite K, C, He.
      unfold sized. cbn. rewrite !mresize_rows, !mresize_cols, !vresize_size. cbn [negb]. apply Nat.eqb_eq in C. repeat split; auto; congruence.
    + rewrite S1, Nat.eqb_refl. rewrite R in S2. rewrite <- S2, Hf. cbn. rewrite K, C. 
      unfold sized. cbn. rewrite !mresize_rows, !mresize_cols, !vresize_size. repeat split; auto; congruence.
  - unfold ctrl_init. destruct Sh as [_ [-> _]]. reflexivity.
  - unfold mixed_init. destruct Sh as [[Z1 [Z2 [Z3 [Z4 [Z5 Z6]]]]] [R [R' Sh]]]. rewrite R, R', Nat.eqb_refl. cbn [negb]. rewrite He in Sh. cbv zeta.
    destruct (Nat.eqb (cols (cE c)) (xDim D) && Nat.eqb (cols (cG c)) (uDim D)) eqn:C; cbn [negb] in Sh.
    + destruct Sh as [S1 [S2 [S3 _]]]. rewrite R in S3. rewrite <- S3, Hf. cbn. rewrite K, C, He.
      unfold sized. cbn. rewrite !mresize_rows, !mresize_cols, !vresize_size. cbn [negb]. repeat split; auto; congruence.
    + destruct Sh as [S1 [S2 S3]]. rewrite S1, S2, !Nat.eqb_refl. cbn [andb]. rewrite R in S3. rewrite <- S3, Hf. cbn. rewrite K, C.
      unfold sized. cbn. rewrite !mresize_rows, !mresize_cols, !vresize_size. cbn [negb]. repeat split; auto; congruence.
  - unfold trajB_init. destruct Sh as [[Z1 [Z2 [Z3 [Z4 [Z5 Z6]]]]] [R [L1 [L2 Sh]]]]. rewrite R, Nat.eqb_refl. cbn [negb]. rewrite He in Sh. cbv zeta.
    rewrite <- R. destruct (Nat.eqb (vsize (clower c)) (xDim D)) eqn:C; cbn [negb] in Sh; destruct Sh as [S1 S2].
    + rewrite <- S2, Hf. cbn. rewrite K, C, He. 
      unfold sized. cbn. rewrite !mresize_rows, !mresize_cols, !vresize_size. cbn [negb]. repeat split; auto; congruence.
    + rewrite S1, Nat.eqb_refl, <- S2, Hf. cbn. rewrite K, C. 
      unfold sized. cbn. rewrite !mresize_rows, !mresize_cols, !vresize_size. cbn [negb]. repeat split; auto; congruence.
  - unfold ctrlB_init. destruct Sh as [-> _]. reflexivity.
Qed.

(** autoSpan *)
Lemma spanMatrix_defined mat d ac : rows mat <> 0 ->
  spanMatrix mat (Z.of_nat d) (Z.of_nat ac) <> UB.
Proof.
  intro R. destruct (Nat.eq_dec (d mod rows mat) 0) as [E|E].
  - apply Nat.mod_divide in E as [q ->]; [|exact R]. destruct (Nat.eq_dec q 1) as [->|Q].
    + rewrite Nat.mul_1_l, spanMatrix_same. discriminate.
    + destruct (spanMatrix_ok mat q ac R Q) as [m [-> _]]. discriminate.
  - rewrite spanMatrix_throw; [discriminate|exact R| |].
    + intro H. apply Nat2Z.inj in H. subst d. apply E. apply Nat.mod_same. exact R.
    + intros [z Hz]. apply E. apply Nat.mod_divide; [exact R|]. exists (Z.to_nat z).
      apply Nat2Z.inj. rewrite Nat2Z.inj_mul. assert (0 <= z)%Z by nia. rewrite Z2Nat.id by assumption. lia.
Qed.
Lemma spanVector_cases {T} jk (v : vec T) d : vsize v <> 0 -> vsize v <= d ->
  (exists w, spanVector jk v (Z.of_nat d) = Ok w /\ vsize w = d) \/ spanVector jk v (Z.of_nat d) = Throw DomainError v.
Proof.
  intros R L. destruct (Nat.eq_dec (d mod vsize v) 0) as [E|E].
  - left. apply Nat.mod_divide in E as [q ->]; [|exact R].
    destruct (spanVector_mult jk v q) as [w [E [S _]]]; [nia|]. exists w. auto.
  - right. apply spanVector_throw; [exact R| |].
    + intro H. apply Nat2Z.inj in H. subst d. apply E. apply Nat.mod_same. exact R.
    + intros [z Hz]. apply E. apply Nat.mod_divide; [exact R|]. exists (Z.to_nat z).
      apply Nat2Z.inj. rewrite Nat2Z.inj_mul. assert (0 <= z)%Z by nia. rewrite Z2Nat.id by assumption. lia.
Qed.
Lemma spanVector_zero {T} jk (v : vec T) d : 
  spanVector jk v (Z.of_nat d) <> UB -> vsize v <= d ->
  (exists w, spanVector jk v (Z.of_nat d) = Ok w /\ vsize w = d) \/ spanVector jk v (Z.of_nat d) = Throw DomainError v.
Proof.
  intros U L. destruct (Nat.eq_dec (vsize v) 0) as [Z|Z]; [|apply spanVector_cases; assumption].
  destruct (Nat.eq_dec d 0) as [->|D].
  - left. exists v. rewrite <- Z at 1. rewrite spanVector_same. auto.
  - exfalso. apply U. apply spanVector_empty; [exact Z|lia].
Qed.

Lemma virgin_EGf c E G f : c_virgin c -> c_virgin (set_EGf c E G f).
Proof. intros H. exact H. Qed.
Lemma virgin_bounds c lo up ll ul : c_virgin c -> (ck c = KTrajB -> lines_ok (set_bounds c lo up ll ul)) ->
  c_virgin (set_bounds c lo up ll ul).
Proof. intros [H1 [H2 [H3 H4]]] L. split; [exact H1|]. split; [exact H2|]. split; [exact L|exact H4]. Qed.

Lemma Forall_lt_le l a b : Forall (fun i => i < a) l -> a <= b -> Forall (fun i => i < b) l.
Proof. intros H L. eapply Forall_impl; [|exact H]. cbn. intros. lia. Qed.

Lemma virgin_span j c : c_virgin c -> con_nonempty c ->
  match c_autoSpan j c with
  | Ok c' | Throw _ c' => c_virgin c'
  | UB => False
  end.
Proof.
  intros V NE. unfold c_autoSpan, con_nonempty in *. destruct (ck c) eqn:K.
  - unfold traj_autoSpan, zmax. cbv zeta. destruct NE as [N1 N2].
    pose proof (spanMatrix_defined (cE c) (Nat.max (rows (cE c)) (vsize (cf c))) 0 N1) as D1. cbn [Z.of_nat] in D1.
    destruct (spanMatrix _ _ _); try (apply virgin_EGf; exact V); [|congruence].
    destruct (spanVector_cases (jext j 0) (cf c) (Nat.max (rows (cE c)) (vsize (cf c))) N2) as [[w [-> _]]| ->]; [lia|apply V|apply V].
  - unfold ctrl_autoSpan, zmax. cbv zeta. destruct NE as [N1 N2].
    pose proof (spanMatrix_defined (cG c) (Nat.max (rows (cG c)) (vsize (cf c))) 0 N1) as D1. cbn [Z.of_nat] in D1.
    destruct (spanMatrix _ _ _); try (apply virgin_EGf; exact V); [|congruence].
    destruct (spanVector_cases (jext j 0) (cf c) (Nat.max (rows (cG c)) (vsize (cf c))) N2) as [[w [-> _]]| ->]; [lia|apply V|apply V].
  - unfold mixed_autoSpan, zmax. cbv zeta. destruct NE as [N1 [N2 N3]]. set (d := Nat.max (vsize (cf c)) _).
    pose proof (spanMatrix_defined (cE c) d 1 N1) as D1. change (Z.of_nat 1) with 1%Z in D1.
    destruct (spanMatrix (cE c) _ _); try (apply virgin_EGf; exact V); [|congruence].
    pose proof (spanMatrix_defined (cG c) d 0 N2) as D2. cbn [Z.of_nat] in D2.
    destruct (spanMatrix (cG c) _ _); try (apply virgin_EGf; exact V); [|congruence].
    destruct (spanVector_cases (jext j 0) (cf c) d N3) as [[w [-> _]]| ->]; [unfold d; lia|apply V|apply V].
  - unfold trajB_autoSpan, zmax. cbv zeta. destruct NE as [N1 N2]. set (d := Nat.max _ _).
    assert (L := proj1 (proj2 (proj2 V)) K). destruct L as [L1 L2].
    destruct (spanVector_cases (jext j 0) (clower c) d N1) as [[lo [-> Slo]]| ->]; [unfold d; lia| |].
    + destruct (spanVector_cases (jext j 1) (cupper c) d N2) as [[up [-> Sup]]| ->]; [unfold d; lia| |].
      * rewrite Slo, Sup, Z.eqb_refl. cbn [negb]. apply virgin_bounds; [exact V|]. intros _. split; cbn.
        -- eapply Forall_lt_le; [exact L1|]. unfold d in Slo. lia.
        -- eapply Forall_lt_le; [exact L2|]. unfold d in Sup. lia.
      * apply virgin_bounds; [exact V|]. intros _. split; cbn; [|exact L2]. eapply Forall_lt_le; [exact L1|]. unfold d in Slo. lia.
    + apply virgin_bounds; [exact V|]. intros _. split; cbn; assumption.
  - unfold ctrlB_autoSpan, zmax. cbv zeta. destruct NE as [N1 N2]. set (d := Nat.max _ _).
    destruct (spanVector_cases (jext j 0) (clower c) d N1) as [[lo [-> Slo]]| ->]; [unfold d; lia| |].
    + destruct (spanVector_cases (jext j 1) (cupper c) d N2) as [[up [-> Sup]]| ->]; [unfold d; lia| |];
        apply virgin_bounds; [exact V|rewrite K; discriminate|exact V|rewrite K; discriminate].
    + apply virgin_bounds; [exact V|rewrite K; discriminate].
Qed.
Lemma set_EGf_id c : set_EGf c (cE c) (cG c) (cf c) = c.
Proof. destruct c; reflexivity. Qed.
Lemma set_bounds_id c : set_bounds c (clower c) (cupper c) (lowerLines c) (upperLines c) = c.
Proof. destruct c; reflexivity. Qed.
Lemma spanned_span j c : c_spanned c -> c_autoSpan j c = Ok c.
Proof.
  unfold c_spanned, c_autoSpan. destruct (ck c); intro H.
  - unfold traj_autoSpan, zmax. cbv zeta. rewrite H, Nat.max_id. rewrite <- H at 1. rewrite spanMatrix_same, spanVector_same, set_EGf_id. reflexivity.
  - unfold ctrl_autoSpan, zmax. cbv zeta. rewrite H, Nat.max_id. rewrite <- H at 1. rewrite spanMatrix_same, spanVector_same, set_EGf_id. reflexivity.
  - destruct H as [H1 H2]. unfold mixed_autoSpan, zmax. cbv zeta. rewrite H1, H2, !Nat.max_id.
    rewrite <- H1 at 1. rewrite spanMatrix_same. rewrite <- H2 at 1. rewrite spanMatrix_same, spanVector_same, set_EGf_id. reflexivity.
  - unfold trajB_autoSpan, zmax. cbv zeta. rewrite <- H, Nat.max_id. rewrite spanVector_same. rewrite H, spanVector_same, Z.eqb_refl.
    cbn [negb]. rewrite set_bounds_id. reflexivity.
  - unfold ctrlB_autoSpan, zmax. cbv zeta. rewrite <- H, Nat.max_id. rewrite spanVector_same. rewrite H, spanVector_same, set_bounds_id. reflexivity.
Qed.

(** ** Costs *)
Definition k_inited (D : psys) (c : cost) : Prop := k_shape D c /\ k_entry D c.
Definition cost_ok (D : psys) (c : cost) : Prop := fresh_ok c \/ k_inited D c.

Lemma initC_dims j p q c : same_dims p q -> initializeCost j p c = initializeCost j q c.
Proof.
  intros [E1 [E2 [E3 [E4 [E5 E6]]]]].
  unfold initializeCost, trajC_init, targetC_init, ctrlC_init, mixedC_init, k_resize. rewrite E1, E2, E5, E6. reflexivity.
Qed.
Lemma fresh_init j D c : fresh_ok c ->
  match initializeCost j D c with
  | Ok c' => k_inited D c'
  | Throw e c' => fresh_ok c'
  | UB => False
  end.
Proof.
  intros F. destruct (initializeCost j D c) as [c'|e c'|] eqn:E.
  - destruct (k_init_ok _ _ _ _ F E) as [_ [_ [_ [_ [_ [S [En _]]]]]]]. split; assumption.
  - unfold initializeCost in E. destruct (kk c);
      [unfold trajC_init in E|unfold targetC_init in E|unfold ctrlC_init in E|unfold mixedC_init in E]; cbv zeta in E;
      break_match E; injection E as _ <-; exact F.
  - unfold initializeCost in E. destruct (kk c);
      [unfold trajC_init in E|unfold targetC_init in E|unfold ctrlC_init in E|unfold mixedC_init in E]; cbv zeta in E;
      break_match E.
Qed.
Lemma inited_initC j D c : k_inited D c -> exists c', initializeCost j D c = Ok c' /\ k_inited D c'.
Proof.
  intros [Sh En]. unfold k_inited. destruct Sh as [Z [W [Dm O]]]. unfold k_sized, k_dims, k_entry in *. unfold initializeCost.
  destruct (kk c) eqn:K.
  - unfold trajC_init. cbn [k_resize set_qp kM kp kQ kc kE kf]. destruct Dm as [R C]. rewrite R, Nat.eqb_refl. cbn [negb].
    destruct (Nat.eqb (cols (kM c)) (xDim D)) eqn:Ec; rewrite En in C; cbn [negb] in C, En.
    + eexists. split; [reflexivity|]. unfold k_shape, k_sized, k_dims, k_entry. cbn. rewrite K, En. cbn.
      rewrite ?mresize_rows, ?mresize_cols, ?vresize_size. rewrite C, Nat.eqb_refl. repeat split; auto; try discriminate.
    + rewrite C, Nat.eqb_refl. eexists. split; [reflexivity|]. unfold k_shape, k_sized, k_dims, k_entry. cbn. rewrite K. cbn.
      rewrite ?mresize_rows, ?mresize_cols, ?vresize_size. rewrite Ec. repeat split; auto; discriminate.
  - unfold targetC_init. cbn [k_resize set_qp kM kp kQ kc kE kf]. destruct Dm as [R C]. rewrite R, C, !Nat.eqb_refl. cbn [negb].
    eexists. split; [reflexivity|]. unfold k_shape, k_sized, k_dims, k_entry. cbn. rewrite K. cbn.
    rewrite ?mresize_rows, ?mresize_cols, ?vresize_size. repeat split; auto; discriminate.
  - unfold ctrlC_init. cbn [k_resize set_qp kN kp kQ kc kE kf]. destruct Dm as [R C]. rewrite R, Nat.eqb_refl. cbn [negb].
    destruct (Nat.eqb (cols (kN c)) (uDim D)) eqn:Ec; rewrite En in C; cbn [negb] in C, En.
    + eexists. split; [reflexivity|]. unfold k_shape, k_sized, k_dims, k_entry. cbn. rewrite K, En. cbn.
      rewrite ?mresize_rows, ?mresize_cols, ?vresize_size. rewrite C, Nat.eqb_refl. repeat split; auto; try discriminate.
    + rewrite C, Nat.eqb_refl. eexists. split; [reflexivity|]. unfold k_shape, k_sized, k_dims, k_entry. cbn. rewrite K. cbn.
      rewrite ?mresize_rows, ?mresize_cols, ?vresize_size. rewrite Ec. repeat split; auto; discriminate.
  - unfold mixedC_init. cbn [k_resize set_qp kM kN kp kQ kc kE kf]. destruct Dm as [R [R' [C C']]]. rewrite R, R', !Nat.eqb_refl. cbn [negb].
    destruct (Nat.eqb (cols (kM c)) (xDim D) && Nat.eqb (cols (kN c)) (uDim D)) eqn:Ec; rewrite En in C, C'; cbn [negb] in C, C', En.
    + eexists. split; [reflexivity|]. unfold k_shape, k_sized, k_dims, k_entry. cbn. rewrite K, En. cbn.
      rewrite ?mresize_rows, ?mresize_cols, ?vresize_size. rewrite Ec. repeat split; auto; try discriminate.
    + rewrite C, C', !Nat.eqb_refl. cbn [andb]. eexists. split; [reflexivity|]. unfold k_shape, k_sized, k_dims, k_entry. cbn. rewrite K. cbn.
      rewrite ?mresize_rows, ?mresize_cols, ?vresize_size. rewrite <- C, <- C', Ec. repeat split; auto; discriminate.
Qed.

Lemma span_pw_fresh j c M N d : fresh_ok c -> vsize (kp c) <> 0 -> vsize (kp c) <= d ->
  match span_pw j c M N (Z.of_nat d) with Ok c' | Throw _ c' => fresh_ok c' | UB => False end.
Proof.
  intros [F W] NZ L. unfold span_pw. destruct (Nat.eq_dec (d mod vsize (kp c)) 0) as [E|E].
  - apply Nat.mod_divide in E as [q ->]; [|exact NZ].
    destruct (spanVector_mult (jvec j 0) (kp c) q) as [p [-> [Sp _]]]; [nia|]. rewrite <- W.
    destruct (spanVector_mult (jvec j 1) (kw c) q) as [w [-> [Sw _]]]; [nia|]. split; [exact F|]. cbn. congruence.
  - rewrite spanVector_throw; [split; assumption|exact NZ| |].
    + intro H. apply Nat2Z.inj in H. subst d. apply E. apply Nat.mod_same. exact NZ.
    + intros [z Hz]. apply E. apply Nat.mod_divide; [exact NZ|]. exists (Z.to_nat z).
      apply Nat2Z.inj. rewrite Nat2Z.inj_mul. assert (0 <= z)%Z by nia. rewrite Z2Nat.id by assumption. lia.
Qed.
Lemma fresh_span j c : fresh_ok c -> cost_nonempty c ->
  match k_autoSpan j c with
  | Ok c' | Throw _ c' => fresh_ok c'
  | UB => False
  end.
Proof.
  intros F NE. unfold k_autoSpan, cost_nonempty in *. destruct (kk c).
  - unfold trajC_autoSpan, zmax. cbv zeta. destruct NE as [N1 N2]. set (d := Nat.max _ _).
    pose proof (spanMatrix_defined (kM c) d 0 N1) as D1. cbn [Z.of_nat] in D1.
    destruct (spanMatrix _ _ _); [|exact F|congruence]. apply span_pw_fresh; [exact F|exact N2|unfold d; lia].
  - exact F.
  - unfold ctrlC_autoSpan, zmax. cbv zeta. destruct NE as [N1 N2]. set (d := Nat.max _ _).
    pose proof (spanMatrix_defined (kN c) d 0 N1) as D1. cbn [Z.of_nat] in D1.
    destruct (spanMatrix _ _ _); [|exact F|congruence]. apply span_pw_fresh; [exact F|exact N2|unfold d; lia].
  - unfold mixedC_autoSpan, zmax. cbv zeta. destruct NE as [N1 [N2 N3]]. set (d := Nat.max _ _).
    pose proof (spanMatrix_defined (kM c) d 1 N1) as D1. change (Z.of_nat 1) with 1%Z in D1.
    destruct (spanMatrix (kM c) _ _); [|exact F|congruence].
    pose proof (spanMatrix_defined (kN c) d 0 N2) as D2. cbn [Z.of_nat] in D2.
    destruct (spanMatrix (kN c) _ _); [|exact F|congruence]. apply span_pw_fresh; [exact F|exact N3|unfold d; lia].
Qed.
Lemma set_data_id c : set_data c (kM c) (kN c) (kp c) (kw c) = c.
Proof. destruct c; reflexivity. Qed.
Lemma inited_span j D c : k_inited D c -> k_autoSpan j c = Ok c.
Proof.
  intros [[_ [W [Dm _]]] _]. unfold k_dims, k_autoSpan in *. destruct (kk c).
  - unfold trajC_autoSpan, zmax. cbv zeta. destruct Dm as [R _]. rewrite W, R, !Nat.max_id. rewrite <- R at 1. rewrite spanMatrix_same.
    unfold span_pw. rewrite spanVector_same. rewrite <- W, spanVector_same, set_data_id. reflexivity.
  - reflexivity.
  - unfold ctrlC_autoSpan, zmax. cbv zeta. destruct Dm as [R _]. rewrite W, R, !Nat.max_id. rewrite <- R at 1. rewrite spanMatrix_same.
    unfold span_pw. rewrite spanVector_same. rewrite <- W, spanVector_same, set_data_id. reflexivity.
  - unfold mixedC_autoSpan, zmax. cbv zeta. destruct Dm as [R [R' _]]. rewrite W, R, R', !Nat.max_id. rewrite <- R at 1. rewrite spanMatrix_same.
    rewrite <- R' at 1. rewrite spanMatrix_same.
    unfold span_pw. rewrite spanVector_same. rewrite <- W, spanVector_same, set_data_id. reflexivity.
Qed.
Lemma inited_w D c w : vsize w = vsize (kw c) -> k_inited D c -> k_inited D (set_w c w).
Proof.
  intros H [S E]. split; [|exact E]. apply k_shape_w; [|exact S]. destruct S as [_ [W _]]. congruence.
Qed.
Lemma fresh_w c w : vsize w = vsize (kw c) -> fresh_ok c -> fresh_ok (set_w c w).
Proof. intros H [F W]. split; [exact F|]. cbn. congruence. Qed.
Lemma weights_ok c w : vsize w <> 0 -> (exists v, k_weights c w = Ok (set_w c v) /\ vsize v = vsize (kw c)) \/ k_weights c w = Throw DomainError c.
Proof.
  intro NZ. destruct (C21_weights c w) as [W1 [W2 [W3 _]]]. cbv zeta in *.
  destruct (Nat.eq_dec (vsize w) (vsize (kw c))) as [E|E]; [left; eauto|].
  destruct (Nat.eq_dec (vsize (kw c) mod vsize w) 0) as [M|M].
  - left. destruct (W2 E NZ) as [v [Ev [Sv _]]]; [apply Nat.mod_divide; assumption|]. eauto.
  - right. apply W3; [exact NZ|]. intro H. apply M. apply Nat.mod_divide; assumption.
Qed.

(** ** Preview systems *)
Definition ps_live (D ps : psys) : Prop :=
  same_dims ps D /\ ps_wf ps /\ vsize (x0 ps) = xDim ps /\
  (isUpdated ps = true -> exists A B d, ps_wf (ps_setModel ps A B d) /\ ps_rep (ps_setModel ps A B d)).

Lemma same_dims_trans a b c : same_dims a b -> same_dims b c -> same_dims a c.
Proof. unfold same_dims. intuition congruence. Qed.
Lemma setModel_id ps : ps_setModel ps (psA ps) (psB ps) (psd ps) = ps.
Proof. destruct ps; reflexivity. Qed.

Lemma update_live D ps : ps_live D ps -> exists ps', updateSystem ps = Some ps' /\ ps_live D ps' /\ x0 ps' = x0 ps /\ isUpdated ps' = true.
Proof.
  intros [E [W [X R]]]. destruct (updateSystem_ok ps W) as [q [U [W2 [R2 [Up [F1 [F2 [F3 [F4 [F5 [F6 [F7 _]]]]]]]]]]]].
  exists q. split; [exact U|]. split; [|auto]. split; [|split; [exact W2|split; [congruence|]]].
  - eapply same_dims_trans; [|exact E]. repeat split; assumption.
  - intros _. exists (psA q), (psB q), (psd q). rewrite setModel_id. auto.
Qed.
Lemma ensure_live D ps : ps_live D ps -> exists ps', ensureUpdated ps = Some ps' /\ ps_live D ps' /\ x0 ps' = x0 ps /\ isUpdated ps' = true.
Proof.
  intro L. unfold ensureUpdated. destruct (isUpdated ps) eqn:U; [exists ps; auto|]. apply update_live. exact L.
Qed.
(** a live updated system predicts some model *)
Lemma live_ready D ps : ps_live D ps -> isUpdated ps = true -> exists A B d, ready (ps_setModel ps A B d).
Proof. intros [E [W [X R]]] U. destruct (R U) as [A [B [d [W2 R2]]]]. exists A, B, d. apply wf_ready; [exact W2|exact R2|exact X]. Qed.
Lemma c_update_model ps A B d c : c_update (ps_setModel ps A B d) c = c_update ps c.
Proof. reflexivity. Qed.
Lemma k_update_model ps A B d c : k_update (ps_setModel ps A B d) c = k_update ps c.
Proof. reflexivity. Qed.

Lemma live_update D ps c : ps_live D ps -> isUpdated ps = true -> c_inited D c ->
  exists c', c_update ps c = Some c' /\ c_inited D c' /\ nrConstr c' = nrConstr c.
Proof.
  intros L U [Sh [He [Hs Hf]]]. destruct (live_ready _ _ L U) as [A [B [d R]]].
  assert (E : same_dims D (ps_setModel ps A B d)) by (apply same_dims_sym; apply L).
  destruct (c_update_ok _ R c (c_shape_dims _ _ _ E Sh)) as [c' [Ec [SD [Sh' _]]]].
  exists c'. rewrite c_update_model in Ec. split; [exact Ec|].
  apply same_dims_sym in E. apply (c_shape_dims _ _ _ E) in Sh'.
  destruct SD as [D1 [D2 [D3 [D4 [D5 [D6 [D7 [D8 [D9 [D10 _]]]]]]]]]].
  split; [|exact D3]. split; [exact Sh'|]. unfold c_entry, c_spanned in *. rewrite D1, D3, D4, D6, D7, D8, D9, D10. auto.
Qed.
Lemma live_updateC D ps c : ps_live D ps -> isUpdated ps = true -> k_inited D c ->
  exists c', k_update ps c = Some c' /\ k_inited D c'.
Proof.
  intros L U [Sh En]. destruct (live_ready _ _ L U) as [A [B [d R]]].
  assert (E : same_dims D (ps_setModel ps A B d)) by (apply same_dims_sym; apply L).
  destruct (k_update_ok _ R c (k_shape_dims _ _ _ E Sh)) as [c' [Ec [SD [Sh' _]]]].
  exists c'. rewrite k_update_model in Ec. split; [exact Ec|].
  apply same_dims_sym in E. apply (k_shape_dims _ _ _ E) in Sh'. split; [exact Sh'|].
  destruct SD as [D1 [D2 [D3 [D4 _]]]]. unfold k_entry in *. rewrite D1, D2, D3, D4. exact En.
Qed.

Lemma update_cons_ok D ps : ps_live D ps -> isUpdated ps = true -> forall l wc, (forall i, In i l -> c_inited D (wc i)) ->
  exists wc', update_cons ps l wc = Some wc' /\ (forall i, c_inited D (wc i) -> c_inited D (wc' i)) /\
    (forall i, ~ In i l -> wc' i = wc i) /\ (forall i, nrConstr (wc' i) = nrConstr (wc i)).
Proof.
  intros L U. unfold update_cons. induction l as [|x t IH]; intros wc H; cbn [for_list].
  - exists wc. auto.
  - destruct (live_update D ps (wc x) L U (H x (or_introl eq_refl))) as [c [Ec [Hc Nc]]]. rewrite Ec. cbn [obind].
    destruct (IH (upd wc x c)) as [wc' [E [H1 [H2 H3]]]].
    + intros i Hi. unfold upd. destruct (Nat.eqb_spec i x) as [->|]; [exact Hc|apply H; right; exact Hi].
    + exists wc'. split; [exact E|]. split; [|split].
      * intros i Hi. apply H1. unfold upd. destruct (Nat.eqb_spec i x) as [->|]; [exact Hc|exact Hi].
      * intros i Hi. rewrite H2 by (intro; apply Hi; right; assumption). unfold upd.
        destruct (Nat.eqb_spec i x) as [->|]; [exfalso; apply Hi; left; reflexivity|reflexivity].
      * intro i. rewrite H3. unfold upd. destruct (Nat.eqb_spec i x) as [->|]; [exact Nc|reflexivity].
Qed.
Lemma update_costs_ok D ps : ps_live D ps -> isUpdated ps = true -> forall l wk, (forall i, In i l -> k_inited D (wk i)) ->
  exists wk', update_costs ps l wk = Some wk' /\ (forall i, k_inited D (wk i) -> k_inited D (wk' i)) /\
    (forall i, ~ In i l -> wk' i = wk i).
Proof.
  intros L U. unfold update_costs. induction l as [|x t IH]; intros wk H; cbn [for_list].
  - exists wk. auto.
  - destruct (live_updateC D ps (wk x) L U (H x (or_introl eq_refl))) as [c [Ec Hc]]. rewrite Ec. cbn [obind].
    destruct (IH (upd wk x c)) as [wk' [E [H1 H2]]].
    + intros i Hi. unfold upd. destruct (Nat.eqb_spec i x) as [->|]; [exact Hc|apply H; right; exact Hi].
    + exists wk'. split; [exact E|]. split.
      * intros i Hi. apply H1. unfold upd. destruct (Nat.eqb_spec i x) as [->|]; [exact Hc|exact Hi].
      * intros i Hi. rewrite H2 by (intro; apply Hi; right; assumption). unfold upd.
        destruct (Nat.eqb_spec i x) as [->|]; [exfalso; apply Hi; left; reflexivity|reflexivity].
Qed.

(** ** Assembling the problem *)
Definition con_sized (xd fu : nat) (c : constr) : Prop :=
  rows (cA c) = nrConstr c /\ cols (cA c) = fu /\ vsize (cb c) = nrConstr c /\
  rows (cY c) = nrConstr c /\ cols (cY c) = xd /\ vsize (cz c) = nrConstr c.
Lemma inited_sized D c : c_inited D c -> ck c <> KCtrlB -> con_sized (xDim D) (fullUDim D) c.
Proof.
  intros [Sh _] K. unfold c_shape in Sh. destruct (ck c); try (destruct Sh as [Z _]; exact Z). congruence.
Qed.

Lemma sum_costs_ok wk fu : forall l Q c, rows Q = fu -> cols Q = fu -> vsize c = fu ->
  (forall k, In k l -> rows (kQ (wk k)) = fu /\ cols (kQ (wk k)) = fu /\ vsize (kc (wk k)) = fu) ->
  exists Q' c', sum_costs wk l (Q, c) = Some (Q', c') /\ rows Q' = fu /\ cols Q' = fu /\ vsize c' = fu.
Proof.
  unfold sum_costs. induction l as [|k t IH]; intros Q c R C V H; cbn [for_list].
  - exists Q, c. auto.
  - destruct (H k (or_introl eq_refl)) as [H1 [H2 H3]]. rewrite madd_ok by congruence. cbn [obind]. rewrite vadd_ok by congruence. cbn [obind].
    apply IH; try assumption. intros i Hi. apply H. right. exact Hi.
Qed.
Lemma stack_rows_ok wc xd fu : forall l A b n, cols A = fu -> vsize b = rows A -> n + total_rows wc l <= rows A ->
  (forall i, In i l -> con_sized xd fu (wc i)) ->
  exists A' b' n', stack_rows fu wc l (A, b, n) = Some (A', b', n') /\ rows A' = rows A /\ cols A' = cols A /\ vsize b' = vsize b.
Proof.
  unfold stack_rows. induction l as [|i t IH]; intros A b n C V L H; cbn [for_list].
  - exists A, b, n. auto.
  - cbn [total_rows fold_right] in L. fold (total_rows wc t) in L. destruct (H i (or_introl eq_refl)) as [H1 [H2 [H3 _]]].
    cbv zeta. rewrite setBlock_ok by (try lia; assumption). cbn [obind]. rewrite setSeg_ok by (try lia; assumption). cbn [obind].
    match goal with |- exists A' b' n', for_list t _ (?a, ?b, ?n) = _ /\ _ => destruct (IH a b n) as [A' [b' [n' [E [R1 [R2 R3]]]]]] end;
      try assumption; cbn [rows cols vsize] in *; try lia.
    { intros k Hk. apply H. right. exact Hk. }
    exists A', b', n'. auto.
Qed.
Lemma is_stack_rows_ok wc xd fu : forall l A b n, cols A = xd + fu -> vsize b = rows A -> n + total_rows wc l <= rows A ->
  (forall i, In i l -> con_sized xd fu (wc i)) ->
  exists A' b' n', is_stack_rows xd fu wc l (A, b, n) = Some (A', b', n') /\ rows A' = rows A /\ cols A' = cols A /\ vsize b' = vsize b.
Proof.
  unfold is_stack_rows. induction l as [|i t IH]; intros A b n C V L H; cbn [for_list].
  - exists A, b, n. auto.
  - cbn [total_rows fold_right] in L. fold (total_rows wc t) in L. destruct (H i (or_introl eq_refl)) as [H1 [H2 [H3 [H4 [H5 H6]]]]].
    cbv zeta. rewrite setBlock_ok by (try lia; assumption). cbn [obind]. rewrite setBlock_ok by (cbn [rows cols]; try lia; assumption). cbn [obind].
    rewrite setSeg_ok by (try lia; assumption). cbn [obind].
    match goal with |- exists A' b' n', for_list t _ (?a, ?b, ?n) = _ /\ _ => destruct (IH a b n) as [A' [b' [n' [E [R1 [R2 R3]]]]]] end;
      try assumption; cbn [rows cols vsize] in *; try lia.
    { intros k Hk. apply H. right. exact Hk. }
    exists A', b', n'. auto.
Qed.
Lemma stack_bounds_ok wc fu : forall l lb ub n, length l <= 1 -> n + fu <= vsize lb -> n + fu <= vsize ub ->
  (forall i, In i l -> nrConstr (wc i) = fu /\ vsize (clb (wc i)) = fu /\ vsize (cub (wc i)) = fu) ->
  exists lb' ub' n', stack_bounds wc l (lb, ub, n) = Some (lb', ub', n') /\ vsize lb' = vsize lb /\ vsize ub' = vsize ub.
Proof.
  intros l lb ub n Ln L1 L2 H. unfold stack_bounds. destruct l as [|i t]; cbn [for_list length] in *.
  { exists lb, ub, n. auto. }
  destruct t as [|i2 t]; [|cbn [length] in Ln; lia]. cbn [for_list].
  destruct (H i (or_introl eq_refl)) as [H1 [H2 H3]]. cbv zeta. rewrite H1.
  rewrite setSeg_ok by (try lia; assumption). cbn [obind]. rewrite setSeg_ok by (try lia; assumption). cbn [obind].
  do 3 eexists. split; [reflexivity|]. auto.
Qed.
Lemma is_sum_costs_ok ps wk : let xd := xDim ps in let fu := fullUDim ps in
  forall l Q c, rows Q = xd + fu -> cols Q = xd + fu -> vsize c = xd + fu ->
  (forall k, In k l -> rows (kQ (wk k)) = fu /\ cols (kQ (wk k)) = fu /\ rows (kE (wk k)) = xd /\ cols (kE (wk k)) = fu /\ vsize (kf (wk k)) = fu) ->
  exists Q' c', is_sum_costs ps wk l (Q, c) = Some (Q', c') /\ rows Q' = xd + fu /\ cols Q' = xd + fu /\ vsize c' = xd + fu.
Proof.
  intros xd fu. unfold is_sum_costs. cbv zeta. fold xd fu. induction l as [|k t IH]; intros Q c R C V H; cbn [for_list].
  - exists Q, c. auto.
  - destruct (H k (or_introl eq_refl)) as [H1 [H2 [H3 [H4 H5]]]].
    rewrite R, C. rewrite (proj2 (Nat.leb_le fu (xd + fu))), (proj2 (Nat.leb_le xd (xd + fu))) by lia. cbn [andb].
    rewrite addBlock_ok by (try lia; assumption). cbn [obind rows cols].
    rewrite addBlock_ok by (cbn [rows cols]; try lia; assumption). cbn [obind rows cols].
    rewrite tail_ok by lia. cbn [obind]. rewrite vadd_ok by (cbn [vsize]; lia). cbn [obind].
    rewrite setSeg_ok by (cbn [vsize]; lia). cbn [obind].
    apply IH; cbn [rows cols vsize]; try assumption. intros i Hi. apply H. right. exact Hi.
Qed.
Lemma is_corner_ok inv xd fu R Q : rows Q = xd + fu -> cols Q = xd + fu -> rows R = xd -> cols R = xd ->
  (forall M, rows M = cols M -> rows (inv M) = rows M /\ cols (inv M) = cols M) ->
  exists Q', is_corner inv xd fu R Q = Some Q' /\ rows Q' = xd + fu /\ cols Q' = xd + fu.
Proof.
  intros RQ CQ RR CR I. unfold is_corner. rewrite RQ, CQ.
  rewrite (proj2 (Nat.leb_le fu (xd + fu))), (proj2 (Nat.leb_le xd (xd + fu))) by lia. cbn [andb].
  rewrite block_ok by lia. cbn [obind]. rewrite setBlock_ok by (cbn [mtrans rows cols]; lia). cbn [obind rows cols]. rewrite CQ, RQ.
  rewrite block_ok by (cbn [rows cols]; lia). cbn [obind]. rewrite block_ok by (cbn [rows cols]; lia). cbn [obind].
  match goal with |- context [mmul _ (inv ?M)] => destruct (I M eq_refl) as [I1 I2]; cbn [rows cols] in I1, I2 end.
  rewrite mmul_ok by (cbn [rows cols]; lia). cbn [obind]. rewrite mmul_ok by (cbn [mtrans rows cols]; lia). cbn [obind].
  rewrite madd_ok by (cbn [mtrans rows cols]; lia). cbn [obind]. rewrite setBlock_ok by (cbn [rows cols mtrans]; lia).
  eexists. split; [reflexivity|]. cbn [rows cols]. auto.
Qed.

(** ** The invariant *)
Definition opt (D : psys) (m : lmpc) : nat := match m_is m with None => fullUDim D | Some _ => xDim D + fullUDim D end.
Definition qp_sized (n : nat) (q : qp) : Prop :=
  rows (qQ q) = n /\ cols (qQ q) = n /\ vsize (qc q) = n /\ vsize (qlb q) = n /\ vsize (qub q) = n.
Record pinv (D : psys) (w : world) : Prop := {
  pi_reg : reg_inv w;
  pi_ps : forall p, 1 <= nrUStep (wps w p) -> ps_live D (wps w p);
  pi_con : forall i, con_ok D (wcon w i);
  pi_cost : forall i, cost_ok D (wcost w i);
  pi_rcon : forall i, In i (spC (ctl w)) -> c_inited D (wcon w i);
  pi_rcost : forall i, In i (spCost (ctl w)) -> k_inited D (wcost w i);
  pi_m : forall p, m_ps (ctl w) = Some p -> 1 <= nrUStep (wps w p) /\ qp_sized (opt D (ctl w)) (m_qp (ctl w));
  pi_eq : total_rows (wcon w) (spEq (ctl w)) <= nrEq (ctl w) /\ fits_int (nrEq (ctl w)) = true;
  pi_ineq : total_rows (wcon w) (spIneq (ctl w)) <= nrIneq (ctl w) /\ fits_int (nrIneq (ctl w)) = true;
  pi_b : length (spB (ctl w)) <= 1
}.

Lemma fits_le a b : a <= b -> fits_int b = true -> fits_int a = true.
Proof. unfold fits_int. rewrite !Z.leb_le. lia. Qed.
Lemma total_rows_ext wc wc' l : (forall i, In i l -> nrConstr (wc' i) = nrConstr (wc i)) -> total_rows wc' l = total_rows wc l.
Proof.
  induction l as [|x t IH]; intro H; cbn; [reflexivity|]. rewrite (H x (or_introl eq_refl)). f_equal.
  apply IH. intros i Hi. apply H. right. exact Hi.
Qed.
Lemma build_ok D e w p : pinv D w -> m_ps (ctl w) = Some p ->
  (forall s, m_is (ctl w) = Some s ->
     rows (isR s) = xDim D /\ cols (isR s) = xDim D /\ vsize (isr s) = xDim D /\ vsize (isx0lb s) = xDim D /\ vsize (isx0ub s) = xDim D) ->
  (forall M, rows M = cols M -> rows (s_inv e M) = rows M /\ cols (s_inv e M) = cols M) ->
  exists w1, build e w = Some w1 /\ pinv D w1 /\ isUpdated (wps w1 p) = true /\ m_ps (ctl w1) = Some p /\ m_is (ctl w1) = m_is (ctl w).
Proof.
  intros P Ep IS INV. pose proof P as [].
  destruct (pi_m0 p Ep) as [Np [Z1 [Z2 [Z3 [Z4 Z5]]]]].
  destruct (ensure_live D _ (pi_ps0 p Np)) as [ps [Eu [Lp [_ Up]]]].
  assert (E6 : same_dims ps D) by apply Lp. destruct E6 as [D1 [D2 [D3 [D4 [D5 D6]]]]].
  destruct (update_cons_ok D ps Lp Up (spC (ctl w)) (wcon w) pi_rcon0) as [wc [Ec [C1 [C2 C3]]]].
  destruct (update_costs_ok D ps Lp Up (spCost (ctl w)) (wcost w) pi_rcost0) as [wk [Ek [K1 K2]]].
  assert (F1 : fits_int (total_rows (wcon w) (spEq (ctl w))) = true) by (eapply fits_le; [apply pi_eq0|apply pi_eq0]).
  assert (F2 : fits_int (total_rows (wcon w) (spIneq (ctl w))) = true) by (eapply fits_le; [apply pi_ineq0|apply pi_ineq0]).
  assert (KD : forall i, same_kind (wcon w i) (wc i)) by (eapply update_cons_kind; exact Ec).
  assert (SZ : forall i, In i (spEq (ctl w)) \/ In i (spIneq (ctl w)) -> con_sized (xDim ps) (fullUDim ps) (wc i)).
  { intros i Hi. rewrite D1, D6. assert (In i (spC (ctl w)) /\ constraintType (wcon w i) <> BoundConstraint) as [Hc Ht].
    { destruct pi_reg0. destruct Hi as [Hi|Hi]; rewrite ?ri_eq, ?ri_ineq in Hi; apply of_type_in in Hi as [H1 H2]; (split; [exact H1|]);
        unfold has_type in H2; intro E; rewrite E in H2; discriminate. }
    apply inited_sized; [apply C1, pi_rcon0, Hc|]. rewrite (proj1 (KD i)). intro E. apply Ht. unfold constraintType. rewrite E. reflexivity. }
  assert (SB : forall i, In i (spB (ctl w)) -> nrConstr (wc i) = fullUDim ps /\ vsize (clb (wc i)) = fullUDim ps /\ vsize (cub (wc i)) = fullUDim ps).
  { intros i Hi. rewrite D6. destruct pi_reg0. rewrite ri_b in Hi. apply of_type_in in Hi as [H1 H2].
    assert (K : ck (wc i) = KCtrlB).
    { rewrite (proj1 (KD i)). unfold has_type, constraintType in H2. destruct (ck (wcon w i)); try reflexivity; destruct (isIneq (wcon w i)); discriminate. }
    destruct (C1 i (pi_rcon0 i H1)) as [Sh _]. unfold c_shape in Sh. rewrite K in Sh. intuition congruence. }
  assert (SK : forall i, In i (spCost (ctl w)) -> k_sized ps (wk i)).
  { intros i Hi. destruct (K1 i (pi_rcost0 i Hi)) as [[Z _] _]. unfold k_sized in *. rewrite D1, D6. exact Z. }
  unfold build, lmpc_updateSystem. rewrite Ep, Eu. cbn [obind]. unfold updateNr. cbn [spEq spIneq spC spB set_qpm]. rewrite F1, F2. cbn [andb obind].
  cbn [spC spCost updateConstraintMatrixSize set_qpm set_lists]. rewrite Ec. cbn [obind]. rewrite Ek. cbn [obind].
  cbn [ctl m_ps updateConstraintMatrixSize set_qpm set_lists]. rewrite Ep. cbn [m_is wps].
  replace (upd (wps w) p ps p) with ps by (unfold upd; rewrite Nat.eqb_refl; reflexivity).
  match goal with |- context [lmpc_makeQPForm ps ?W] => set (w0 := W) end.
  match goal with |- context [m_is ?M] => match M with ctl _ => fail 1 | _ => change (m_is M) with (m_is (ctl w)) end end.
  set (m1 := updateConstraintMatrixSize _ _ _) in w0.
  assert (NO : optSize (set_lists (set_qpm (ctl w) (resetQP (m_qp (ctl w)))) (total_rows (wcon w) (spEq (ctl w)))
        (total_rows (wcon w) (spIneq (ctl w))) (spC (ctl w)) (spEq (ctl w)) (spIneq (ctl w)) (spB (ctl w))) ps = opt D (ctl w)).
  { unfold optSize, opt. cbn. rewrite D1, D6. reflexivity. }
  assert (exists q, (match m_is (ctl w) with None => lmpc_makeQPForm ps w0 | Some is => is_makeQPForm (s_inv e) is ps w0 end) = Some q /\
            qp_sized (opt D (ctl w)) q) as [q [Eq Sq]].
  { destruct (m_is (ctl w)) as [is|] eqn:Ei.
    - destruct (IS is eq_refl) as [I1 [I2 [I3 [I4 I5]]]]. unfold is_makeQPForm. cbv zeta. unfold w0. cbn [ctl wcost wcon m1 m_qp set_qpm set_lists spCost spEq spIneq spB].
      unfold m1, updateConstraintMatrixSize. cbn [ctl wcost wcon m_qp set_qpm set_lists spCost spEq spIneq spB qQ qc qAeq qbeq qAineq qbineq qlb qub resetQP mscal mident rows cols nrEq nrIneq].
      assert (EO : optSize (set_lists (set_qpm (ctl w) (resetQP (m_qp (ctl w)))) (total_rows (wcon w) (spEq (ctl w)))
        (total_rows (wcon w) (spIneq (ctl w))) (spC (ctl w)) (spEq (ctl w)) (spIneq (ctl w)) (spB (ctl w))) ps = xDim ps + fullUDim ps).
      { rewrite NO. unfold opt. rewrite Ei, D1, D6. reflexivity. }
      unfold opt in *. rewrite Ei in *. rewrite EO.
      destruct (is_sum_costs_ok ps wk (spCost (ctl w)) (mscal q1em6 (mident (rows (qQ (m_qp (ctl w)))) (cols (qQ (m_qp (ctl w))))))
                  (vconst (vsize (qc (m_qp (ctl w)))) 0%Qc)) as [Q [c [E1 [RQ [CQ VC]]]]];
        [cbn; congruence|cbn; congruence|cbn; congruence| |].
      { intros k Hk. destruct (SK k Hk) as [A1 [A2 [A3 [A4 [A5 A6]]]]]. auto. }
      rewrite E1. cbn [obind].
      match goal with |- context [is_stack_rows _ _ wc (spEq (ctl w)) (?a, ?b, 0)] =>
        destruct (is_stack_rows_ok wc (xDim ps) (fullUDim ps) (spEq (ctl w)) a b 0) as [Ae [be [ne [E2 _]]]] end;
        [apply mresize_cols|rewrite vresize_size, mresize_rows; reflexivity
        |rewrite mresize_rows; rewrite (total_rows_ext (wcon w) wc) by (intros; apply C3); cbn; lia|auto|].
      rewrite E2. cbn [obind].
      match goal with |- context [is_stack_rows _ _ wc (spIneq (ctl w)) (?a, ?b, 0)] =>
        destruct (is_stack_rows_ok wc (xDim ps) (fullUDim ps) (spIneq (ctl w)) a b 0) as [Ai [bi [ni [E3 _]]]] end;
        [apply mresize_cols|rewrite vresize_size, mresize_rows; reflexivity
        |rewrite mresize_rows; rewrite (total_rows_ext (wcon w) wc) by (intros; apply C3); cbn; lia|auto|].
      rewrite E3. cbn [obind].
      destruct (stack_bounds_ok wc (fullUDim ps) (spB (ctl w)) (qlb (m_qp (ctl w))) (qub (m_qp (ctl w))) (xDim ps) pi_b0) as [lb [ub [nb [E4 [L1 L2]]]]];
        [rewrite Z4, D1, D6; lia|rewrite Z5, D1, D6; lia|exact SB|].
      rewrite E4. cbn [obind].
      destruct (is_corner_ok (s_inv e) (xDim ps) (fullUDim ps) (isR is) Q RQ CQ) as [Q' [E5 [RQ' CQ']]]; [congruence|congruence|exact INV|].
      rewrite E5. cbn [obind]. unfold setHead.
      rewrite setSeg_ok by (rewrite ?VC; lia). cbn [obind].
      rewrite setSeg_ok by (rewrite ?L1, ?Z4; lia). cbn [obind].
      rewrite setSeg_ok by (rewrite ?L2, ?Z5; lia). cbn [obind].
      eexists. split; [reflexivity|]. unfold qp_sized. cbn. rewrite <- D1, <- D6. repeat split; congruence.
    - unfold lmpc_makeQPForm. cbv zeta. unfold w0. cbn [ctl wcost wcon m1 m_qp set_qpm set_lists spCost spEq spIneq spB].
      unfold m1, updateConstraintMatrixSize. cbn [ctl wcost wcon m_qp set_qpm set_lists spCost spEq spIneq spB qQ qc qAeq qbeq qAineq qbineq qlb qub resetQP mscal mident rows cols nrEq nrIneq].
      assert (EO : optSize (set_lists (set_qpm (ctl w) (resetQP (m_qp (ctl w)))) (total_rows (wcon w) (spEq (ctl w)))
        (total_rows (wcon w) (spIneq (ctl w))) (spC (ctl w)) (spEq (ctl w)) (spIneq (ctl w)) (spB (ctl w))) ps = fullUDim ps).
      { rewrite NO. unfold opt. rewrite Ei, D6. reflexivity. }
      unfold opt in *. rewrite Ei in *. rewrite EO.
      destruct (sum_costs_ok wk (fullUDim ps) (spCost (ctl w)) (mscal q1em6 (mident (rows (qQ (m_qp (ctl w)))) (cols (qQ (m_qp (ctl w))))))
                  (vconst (vsize (qc (m_qp (ctl w)))) 0%Qc)) as [Q [c [E1 [RQ [CQ VC]]]]];
        [cbn; congruence|cbn; congruence|cbn; congruence| |].
      { intros k Hk. destruct (SK k Hk) as [A1 [A2 [A3 [A4 [A5 A6]]]]]. auto. }
      rewrite E1. cbn [obind].
      match goal with |- context [stack_rows _ wc (spEq (ctl w)) (?a, ?b, 0)] =>
        destruct (stack_rows_ok wc (xDim ps) (fullUDim ps) (spEq (ctl w)) a b 0) as [Ae [be [ne [E2 _]]]] end;
        [apply mresize_cols|rewrite vresize_size, mresize_rows; reflexivity
        |rewrite mresize_rows; rewrite (total_rows_ext (wcon w) wc) by (intros; apply C3); cbn; lia|auto|].
      rewrite E2. cbn [obind].
      match goal with |- context [stack_rows _ wc (spIneq (ctl w)) (?a, ?b, 0)] =>
        destruct (stack_rows_ok wc (xDim ps) (fullUDim ps) (spIneq (ctl w)) a b 0) as [Ai [bi [ni [E3 _]]]] end;
        [apply mresize_cols|rewrite vresize_size, mresize_rows; reflexivity
        |rewrite mresize_rows; rewrite (total_rows_ext (wcon w) wc) by (intros; apply C3); cbn; lia|auto|].
      rewrite E3. cbn [obind].
      destruct (stack_bounds_ok wc (fullUDim ps) (spB (ctl w)) (qlb (m_qp (ctl w))) (qub (m_qp (ctl w))) 0 pi_b0) as [lb [ub [nb [E4 [L1 L2]]]]];
        [rewrite Z4, D6; lia|rewrite Z5, D6; lia|exact SB|].
      rewrite E4. cbn [obind].
      eexists. split; [reflexivity|]. unfold qp_sized. cbn. rewrite <- D6. repeat split; congruence. }
  rewrite Eq. cbn [obind]. eexists. split; [reflexivity|].
  set (w1 := set_ctl w0 _).
  split; [|split; [|split]].
  - assert (RI : reg_inv w1).
    { apply (kept_inv w); [exact pi_reg0|]. unfold w1, w0. repeat split; cbn; apply KD. }
    split; try exact RI; unfold w1, w0; cbn [set_ctl ctl wps wcon wcost set_qpm m1 set_lists spC spEq spIneq spB spCost m_ps m_is m_qp nrEq nrIneq]; unfold m1; cbn -[total_rows fits_int].
    + intros r Hr. unfold upd in *. destruct (Nat.eqb r p); [exact Lp|auto].
    + intro i. destruct (in_dec Nat.eq_dec i (spC (ctl w))) as [Hi|Hi].
      * right. apply C1, pi_rcon0, Hi.
      * rewrite C2 by exact Hi. apply pi_con0.
    + intro i. destruct (in_dec Nat.eq_dec i (spCost (ctl w))) as [Hi|Hi].
      * right. apply K1, pi_rcost0, Hi.
      * rewrite K2 by exact Hi. apply pi_cost0.
    + intros i Hi. apply C1, pi_rcon0, Hi.
    + intros i Hi. apply K1, pi_rcost0, Hi.
    + intros r Hr. rewrite Ep in Hr. injection Hr as <-. unfold upd. rewrite Nat.eqb_refl. split; [|exact Sq].
      apply Lp.
    + rewrite (total_rows_ext (wcon w) wc) by (intros; apply C3). split; [lia|exact F1].
    + rewrite (total_rows_ext (wcon w) wc) by (intros; apply C3). split; [lia|exact F2].
    + exact pi_b0.
  - unfold w1, w0. cbn. unfold upd. rewrite Nat.eqb_refl. exact Up.
  - unfold w1, w0. cbn. unfold m1. cbn. exact Ep.
  - reflexivity.
Qed.


(** ** solve *)
Lemma total_rows_filter wc P l : total_rows wc (filter P l) <= total_rows wc l.
Proof. induction l as [|x t IH]; cbn; [lia|]. destruct (P x); cbn; unfold total_rows in *; lia. Qed.
Lemma total_rows_remove wc i l : total_rows wc (remove_first i l) <= total_rows wc l.
Proof. induction l as [|x t IH]; cbn; [lia|]. destruct (Nat.eqb x i); cbn; unfold total_rows in *; lia. Qed.
Lemma filter_len {A} (P : A -> bool) l : length (filter P l) <= length l.
Proof. induction l as [|x t IH]; cbn; [lia|]. destruct (P x); cbn; lia. Qed.
Lemma remove_len i l : length (remove_first i l) <= length l.
Proof. induction l as [|x t IH]; cbn; [lia|]. destruct (Nat.eqb x i); cbn; lia. Qed.

(** the invariant does not read the results, the solver nor the timers *)
Lemma pinv_ctl D w m : pinv D w -> m_is m = m_is (ctl w) -> m_ps m = m_ps (ctl w) -> m_qp m = m_qp (ctl w) ->
  nrEq m = nrEq (ctl w) -> nrIneq m = nrIneq (ctl w) -> spC m = spC (ctl w) -> spEq m = spEq (ctl w) ->
  spIneq m = spIneq (ctl w) -> spB m = spB (ctl w) -> spCost m = spCost (ctl w) -> pinv D (set_ctl w m).
Proof.
  intros P E1 E2 E3 E4 E5 E6 E7 E8 E9 E10. pose proof P as [].
  split; cbn [set_ctl ctl wps wcon wcost]; unfold opt in *; rewrite ?E1, ?E2, ?E3, ?E4, ?E5, ?E6, ?E7, ?E8, ?E9, ?E10; try assumption.
  apply (kept_inv w); [assumption|]. repeat split; cbn; assumption || reflexivity.
Qed.
Lemma pinv_checkDelete D w : pinv D w -> pinv D (checkDelete w).
Proof.
  intro P. pose proof P as []. pose proof (checkDelete_inv w pi_reg0) as RI.
  destruct (checkDelete_ok w pi_reg0) as [lk [-> E]]. cbv zeta in E. rewrite E in RI |- *.
  split; cbn [set_ctl set_costs set_lists ctl wps wcon wcost spC spEq spIneq spB spCost m_ps m_is m_qp nrEq nrIneq]; try assumption.
  - intros i Hi. apply filter_In in Hi. apply pi_rcon0. tauto.
  - intros i Hi. apply filter_In in Hi. apply pi_rcost0. tauto.
  - split; [|apply pi_eq0]. etransitivity; [apply total_rows_filter|apply pi_eq0].
  - split; [|apply pi_ineq0]. etransitivity; [apply total_rows_filter|apply pi_ineq0].
  - etransitivity; [apply filter_len|exact pi_b0].
Qed.

Lemma solve_ok D e w : pinv D w -> m_ps (ctl w) <> None ->
  (forall s, m_is (ctl w) = Some s ->
     rows (isR s) = xDim D /\ cols (isR s) = xDim D /\ vsize (isr s) = xDim D /\ vsize (isx0lb s) = xDim D /\ vsize (isx0ub s) = xDim D) ->
  (forall M, rows M = cols M -> rows (s_inv e M) = rows M /\ cols (s_inv e M) = cols M) ->
  (forall k a b q r, s_qp e k a b q = (true, r) -> vsize r = k) ->
  exists b w', solve e w = Some (b, w') /\ pinv D w'.
Proof.
  intros P NP IS INV SOL. destruct (m_ps (ctl w)) as [p|] eqn:Ep; [|congruence].
  destruct (build_ok D e w p P Ep IS INV) as [w1 [Eb [P1 [Up [Ep1 Ei1]]]]].
  unfold solve. rewrite Eb. cbn [obind]. destruct (s_qp e _ _ _ _) as [ok r] eqn:Es.
  set (w2 := set_ctl w1 _).
  assert (P2 : pinv D w2) by (apply pinv_ctl; [exact P1|reflexivity..]).
  pose proof (pinv_checkDelete D w2 P2) as P3.
  assert (K : m_ps (ctl (checkDelete w2)) = Some p /\ m_is (ctl (checkDelete w2)) = m_is (ctl w1) /\ m_sol (ctl (checkDelete w2)) = r /\
              wps (checkDelete w2) = wps w1).
  { unfold w2. repeat split; cbn; exact Ep1 || reflexivity. }
  destruct K as [K1 [K2 [K3 K4]]]. set (w3 := checkDelete w2) in *.
  assert (exists w4, (if ok then updateResults w3 else Some w3) = Some w4 /\ pinv D w4) as [w4 [E4 P4]].
  { destruct ok; [|exists w3; auto]. destruct (pi_m _ _ P1 p Ep1) as [Np [_ [_ [Zc _]]]].
    pose proof (SOL _ _ _ _ _ Es) as Sr. rewrite Zc in Sr. destruct (pi_ps _ _ P1 p Np) as [SD [WF [X _]]].
    destruct SD as [D1 [D2 [D3 [D4 [D5 D6]]]]].
    unfold updateResults. rewrite K1, K2, K3, K4. cbv zeta. unfold opt in Sr. destruct (m_is (ctl w1)) as [s|] eqn:Es1.
    - rewrite tail_ok by lia. cbn [obind]. unfold initialState. rewrite K1, K3, K4. rewrite seg_ok by lia. cbn [obind].
      rewrite preview_ok by (try assumption; cbn; lia). cbn [obind].
      eexists. split; [reflexivity|]. apply pinv_ctl; [exact P3|reflexivity..].
    - rewrite preview_ok by (try assumption; lia). cbn [obind].
      eexists. split; [reflexivity|]. apply pinv_ctl; [exact P3|reflexivity..]. }
  rewrite E4. cbn [obind]. do 2 eexists. split; [reflexivity|]. apply pinv_ctl; [exact P4|reflexivity..].
Qed.

(** ** One call *)
Lemma pinv_ps D w p s : pinv D w -> ps_live D s -> pinv D (set_ps w p s).
Proof.
  intros P L. pose proof P as []. split; cbn [set_ps ctl wps wcon wcost]; try assumption.
  - apply (kept_inv w); [assumption|]. repeat split.
  - intros q. unfold upd. destruct (Nat.eqb q p); auto.
  - intros q Hq. destruct (pi_m0 q Hq) as [H1 H2]. split; [|exact H2]. unfold upd. destruct (Nat.eqb q p); [apply L|exact H1].
Qed.
Lemma pinv_same_ps D w p : pinv D w -> pinv D (set_ps w p (wps w p)).
Proof.
  intros P. pose proof P as []. split; cbn [set_ps ctl wps wcon wcost]; try assumption.
  - apply (kept_inv w); [assumption|]. repeat split.
  - intros q. unfold upd. destruct (Nat.eqb_spec q p) as [->|]; auto.
  - intros q Hq. destruct (pi_m0 q Hq) as [H1 H2]. split; [|exact H2]. unfold upd. destruct (Nat.eqb_spec q p) as [->|]; exact H1.
Qed.
Lemma pinv_con D w i c : pinv D w -> same_kind (wcon w i) c -> con_ok D c -> (c_inited D (wcon w i) -> c_inited D c) ->
  (In i (spC (ctl w)) -> nrConstr c = nrConstr (wcon w i)) -> pinv D (set_con w i c).
Proof.
  intros P K O I Nr. pose proof P as [].
  assert (T : forall l, (forall k, In k l -> In k (spC (ctl w))) -> total_rows (upd (wcon w) i c) l = total_rows (wcon w) l).
  { intros l Hl. apply total_rows_ext. intros k Hk. unfold upd. destruct (Nat.eqb_spec k i) as [->|]; [apply Nr, Hl, Hk|reflexivity]. }
  assert (T1 : forall k, In k (spEq (ctl w)) -> In k (spC (ctl w))).
  { intros k. rewrite (ri_eq w pi_reg0). intro H. apply of_type_in in H. tauto. }
  assert (T2 : forall k, In k (spIneq (ctl w)) -> In k (spC (ctl w))).
  { intros k. rewrite (ri_ineq w pi_reg0). intro H. apply of_type_in in H. tauto. }
  split; cbn [set_con ctl wps wcon wcost]; try assumption.
  - apply (kept_inv w); [assumption|]. repeat split; cbn; unfold upd; destruct (Nat.eqb_spec i0 i) as [->|]; try reflexivity; apply K.
  - intros k. unfold upd. destruct (Nat.eqb k i); auto.
  - intros k Hk. unfold upd. destruct (Nat.eqb_spec k i) as [->|]; auto.
  - rewrite T by exact T1. exact pi_eq0.
  - rewrite T by exact T2. exact pi_ineq0.
Qed.
Lemma pinv_cost D w i c : pinv D w -> cost_ok D c -> (k_inited D (wcost w i) -> k_inited D c) -> pinv D (set_cost w i c).
Proof.
  intros P O I. pose proof P as []. split; cbn [set_cost ctl wps wcon wcost]; try assumption.
  - apply (kept_inv w); [assumption|]. repeat split.
  - intros k. unfold upd. destruct (Nat.eqb k i); auto.
  - intros k Hk. unfold upd. destruct (Nat.eqb_spec k i) as [->|]; auto.
Qed.
Lemma pinv_hcon D w i n : pinv D w -> reg_inv (set_hcon w i n) -> pinv D (set_hcon w i n).
Proof. intros P R. destruct P. split; assumption. Qed.
Lemma pinv_hcost D w i n : pinv D w -> reg_inv (set_hcost w i n) -> pinv D (set_hcost w i n).
Proof. intros P R. destruct P. split; assumption. Qed.

Lemma new_con_virgin d : c_virgin (new_con d).
Proof.
  destruct d; unfold c_virgin; cbn; repeat split; try reflexivity; try discriminate; try apply mkTrajB_lines.
Qed.
Lemma new_cost_fresh d : fresh_ok (new_cost d).
Proof. destruct d; split; reflexivity. Qed.

Lemma init_controller_ok D j p w : pinv D w -> fits_int (opt D (ctl w)) = true -> 1 <= nrUStep (wps w p) ->
  exists w', initializeController j w p = Some w' /\ pinv D w'.
Proof.
  intros P F L. pose proof P as []. destruct (pi_ps0 p L) as [[D1 [D2 [D3 [D4 [D5 D6]]]]] _].
  unfold initializeController, clearConstraintMatrices.
  assert (EO : optSize (set_mps (ctl w) p) (wps w p) = opt D (ctl w)).
  { unfold optSize, opt. cbn. rewrite D1, D6. reflexivity. }
  rewrite EO, F. cbn [obind]. eexists. split; [reflexivity|].
  unfold updateQPMatrixSize. cbn [set_qpm m_is set_mps].
  assert (EO2 : forall q, optSize (set_qpm (set_mps (ctl w) p) q) (wps w p) = opt D (ctl w)) by (intro; exact EO).
  rewrite EO2.
  split; cbn [set_ctl set_qpm set_mps ctl wps wcon wcost spC spEq spIneq spB spCost m_ps m_is m_qp nrEq nrIneq qQ qc qlb qub]; try assumption.
  - apply (kept_inv w); [assumption|]. repeat split.
  - intros q Hq. injection Hq as <-. split; [exact L|]. unfold qp_sized, opt. cbn. rewrite mresize_rows, mresize_cols, vresize_size.
    repeat split.
Qed.

Lemma pinv_default D w s r : pinv D w -> pinv D (set_ctl w (lmpc_default s r)).
Proof.
  intros P. pose proof P as []. destruct pi_reg0. split; cbn; try assumption; try contradiction; try discriminate; try lia; try (split; [lia|reflexivity]).
  split; cbn; try reflexivity; try contradiction; assumption.
Qed.

Section Step.
Variables n m N : nat.
Hypothesis SF : sizes_fit n m N.
Let D := dps n m N.

Lemma fits_opt w : fits_int (opt D w) = true.
Proof using SF. destruct SF as [_ [_ [_ [_ [_ [F1 F2]]]]]]. unfold opt, D, dps. cbn [fullUDim xDim]. destruct (m_is w); assumption. Qed.

Lemma construct_ok j k r w : pinv D w -> legal n m N w (OConstruct j k r) -> exists w', construct j k r w = Some w' /\ pinv D w'.
Proof using SF.
  intros P L. destruct k; cbn [legal construct] in *.
  - eexists. split; [reflexivity|]. apply pinv_default, P.
  - apply init_controller_ok; [apply pinv_default, P|apply fits_opt|exact L].
  - eexists. split; [reflexivity|]. apply pinv_default, P.
  - apply init_controller_ok; [apply pinv_default, P|apply fits_opt|exact L].
Qed.

Lemma system_ok w p s c b x k : pinv D w -> legal n m N w (OPs p (PSystem s c b x k)) ->
  match system (wps w p) s c b x k with Ok q => ps_live D q | Throw _ q => q = wps w p | UB => False end.
Proof using SF.
  intros P L. pose proof (system_cases (wps w p) s c b x k) as H. cbn [legal] in L.
  destruct SF as [S1 [S2 [S3 [S4 [S5 [S6 S7]]]]]].
  destruct (system _ _ _ _ _ _) as [q|e q|].
  - destruct H as [H1 [H2 [H3 [H4 [H5 [WF [U [X1 [X2 [X3 [X4 [X5 _]]]]]]]]]]]].
    destruct L as [L1 [L2 ->]]; [repeat split; lia || congruence|]. rewrite Nat2Z.id in *.
    unfold ps_live. split; [|split; [exact WF|split; [congruence|congruence]]].
    pose proof WF as []. unfold same_dims, D, dps. cbn [xDim uDim nrUStep nrXStep fullXDim fullUDim].
    repeat split; try congruence. all: rewrite ?wf_fx0, ?wf_fu0; congruence.
  - apply H.
  - destruct H as [H1 [H2 [H3 [H4 [H5 F]]]]]. destruct L as [L1 [L2 ->]]; [repeat split; lia || congruence|].
    rewrite Nat2Z.id, L1, L2, S2, S3, S4, S5, S6 in F. discriminate.
Qed.

Lemma add_con_ok j w i : pinv D w -> legal n m N w (OAddCon j i) ->
  match addConstraint j w i with Ok w' | Throw _ w' => reg_inv w' -> pinv D w' | UB => False end.
Proof using SF.
  intros P [HS L]. unfold addConstraint. unfold has_system in HS. destruct (m_ps (ctl w)) as [p|] eqn:Ep; [|congruence].
  destruct (pi_m _ _ P p Ep) as [Lp Zq]. destruct (pi_ps _ _ P p Lp) as [SD _].
  rewrite (row_count_dims _ _ _ SD) in L. rewrite (init_dims j _ _ _ SD).
  set (c := wcon w i) in *.
  assert (FR : fits_int (row_count D c) = true).
  { destruct (constraintType c) eqn:T.
    - eapply fits_le; [|exact L]. lia.
    - eapply fits_le; [|exact L]. lia.
    - unfold constraintType in T. unfold row_count. destruct (ck c); try (destruct (isIneq c); discriminate). apply SF. }
  assert (R : match initializeConstraint j D c with
    | Ok c' => c_inited D c' /\ nrConstr c' = row_count D c /\ same_kind c c' /\ (In i (spC (ctl w)) -> nrConstr c' = nrConstr c)
    | Throw e c' => c' = c | UB => False end).
  { destruct (in_dec Nat.eq_dec i (spC (ctl w))) as [Hi|Hi].
    - pose proof (inited_reinit j D c (pi_rcon _ _ P i Hi)) as H. destruct (initializeConstraint j D c); try exact H.
      destruct H as [H1 [H2 [H3 H4]]]. repeat split; try congruence; try apply H1; apply H4.
    - destruct (pi_con _ _ P i) as [V|V].
      + pose proof (virgin_init j D c V FR) as H. destruct (initializeConstraint j D c); try exact H.
        destruct H as [H1 [H2 H3]]. split; [exact H1|]. split; [exact H2|]. split; [exact H3|]. intro; contradiction.
      + pose proof (inited_reinit j D c V) as H. destruct (initializeConstraint j D c); try exact H.
        destruct H as [H1 [H2 [H3 H4]]]. split; [exact H1|]. split; [congruence|]. split; [exact H4|]. intro; contradiction. }
  destruct (initializeConstraint j D c) as [c'|e c'|]; [|intros _|contradiction].
  2:{ subst c'. apply pinv_con; [exact P|split; reflexivity|apply P|tauto|reflexivity]. }
  destruct R as [R1 [R2 [R3 R4]]].
  assert (P1 : pinv D (set_con w i c')) by (apply pinv_con; [exact P|exact R3|right; exact R1|intros _; exact R1|exact R4]).
  unfold addConstraintByType. cbn [set_con wcon ctl].
  replace (upd (wcon w) i c' i) with c' by (unfold upd; rewrite Nat.eqb_refl; reflexivity).
  assert (T : constraintType c' = constraintType c) by (unfold constraintType; destruct R3 as [-> ->]; reflexivity).
  rewrite T, R2. pose proof P1 as []. cbn [set_con ctl wps wcon wcost] in *.
  assert (TS : forall l, total_rows (upd (wcon w) i c') (l ++ [i]) = total_rows (upd (wcon w) i c') l + row_count D c).
  { induction l as [|x t IH]; cbn.
    - unfold upd at 1. rewrite Nat.eqb_refl. lia.
    - unfold total_rows in *. rewrite IH. lia. }
  assert (RC : forall k, In k (spC (ctl w) ++ [i]) -> c_inited D (upd (wcon w) i c' k)).
  { intros k Hk. apply in_app_iff in Hk as [Hk|[<-|[]]]; [auto|]. unfold upd. rewrite Nat.eqb_refl. exact R1. }
  destruct (constraintType c) eqn:Tc.
  - rewrite L. cbn [of_opt]. intro RI.
    split; cbn [set_con set_ctl set_lists ctl wps wcon wcost spC spEq spIneq spB spCost m_ps m_is m_qp nrEq nrIneq]; try assumption.
    rewrite TS. split; [lia|exact L].
  - rewrite L. cbn [of_opt]. intro RI.
    split; cbn [set_con set_ctl set_lists ctl wps wcon wcost spC spEq spIneq spB spCost m_ps m_is m_qp nrEq nrIneq]; try assumption.
    rewrite TS. split; [lia|exact L].
  - cbn [of_opt]. intro RI.
    split; cbn [set_con set_ctl set_lists ctl wps wcon wcost spC spEq spIneq spB spCost m_ps m_is m_qp nrEq nrIneq]; try assumption.
    rewrite L. cbn. lia.
Qed.

Lemma add_cost_ok j w i : pinv D w -> legal n m N w (OAddCost j i) ->
  match addCost j w i with Ok w' | Throw _ w' => reg_inv w' -> pinv D w' | UB => False end.
Proof using SF.
  intros P HS. unfold addCost. cbn [legal] in HS. unfold has_system in HS. destruct (m_ps (ctl w)) as [p|] eqn:Ep; [|congruence].
  destruct (pi_m _ _ P p Ep) as [Lp Zq]. destruct (pi_ps _ _ P p Lp) as [SD _].
  rewrite (initC_dims j _ _ _ SD). set (c := wcost w i) in *.
  assert (R : match initializeCost j D c with
    | Ok c' => k_inited D c' | Throw e c' => cost_ok D c' /\ (k_inited D c -> k_inited D c') | UB => False end).
  { destruct (pi_cost _ _ P i) as [V|V]; fold c in V.
    - pose proof (fresh_init j D c V) as H. destruct (initializeCost j D c) eqn:E; try exact H.
      split; [left; exact H|]. intro I. destruct (inited_initC j D c I) as [c' [E' _]]. congruence.
    - destruct (inited_initC j D c V) as [c' [-> I]]. exact I. }
  destruct (initializeCost j D c) as [c'|e c'|]; [intro RI|intros _|contradiction].
  2:{ apply pinv_cost; tauto. }
  assert (P1 : pinv D (set_cost w i c')) by (apply pinv_cost; [exact P|right; exact R|intros _; exact R]).
  pose proof P1 as []. cbn [set_cost ctl wps wcon wcost] in *.
  split; cbn [set_cost set_ctl set_costs ctl wps wcon wcost spC spEq spIneq spB spCost m_ps m_is m_qp nrEq nrIneq]; try assumption.
  intros k Hk. apply in_app_iff in Hk as [Hk|[<-|[]]]; [auto|]. unfold upd. rewrite Nat.eqb_refl. exact R.
Qed.

Lemma step_ok w o : pinv D w -> legal n m N w o ->
  match step w o with Ok w' | Throw _ w' => pinv D w' | UB => False end.
Proof using SF.
  intros P L. pose proof (step_inv w o (pi_reg _ _ P)) as RI.
  destruct o; cbn [step] in RI |- *.
  - (* preview system *)
    destruct o as [s c b x k|x|A B d| | |]; cbn [ps_step out_map].
    + pose proof (system_ok w p s c b x k P L) as H. cbn [ps_step].
      destruct (system (wps w p) s c b x k); cbn [out_map]; [apply pinv_ps; assumption|subst; apply pinv_same_ps; exact P|exact H].
    + destruct L as [Lp Lx]. destruct (pi_ps _ _ P p Lp) as [SD [WF [X R]]]. cbn [ps_step out_map]. apply pinv_ps; [exact P|].
      split; [exact SD|]. split; [apply xInit_wf, WF|]. split; [cbn; rewrite Lx; symmetry; apply SD|].
      cbn [ps_xInit isUpdated]. intro U. destruct (R U) as [A [B [d [W2 R2]]]]. exists A, B, d. split.
      * apply (xInit_wf _ x) in W2. exact W2.
      * destruct R2. split; assumption.
    + destruct L as [Lp Ld]. destruct (pi_ps _ _ P p Lp) as [SD [WF [X R]]]. cbn [ps_step out_map]. apply pinv_ps; [exact P|].
      assert (X1 : xDim (wps w p) = n) by apply SD. assert (X2 : uDim (wps w p) = m) by apply SD.
      split; [exact SD|]. split; [apply setModel_wf; [exact WF|rewrite X1, X2; exact Ld]|]. split; [exact X|].
      cbn [ps_setModel isUpdated]. intro U. destruct (R U) as [A1 [B1 [d1 [W2 R2]]]]. exists A1, B1, d1. split; [exact W2|exact R2].
    + cbn [ps_step out_map]. destruct (le_lt_dec 1 (nrUStep (wps w p))) as [Lp|Lp].
      * destruct (pi_ps _ _ P p Lp) as [SD [WF [X R]]]. apply pinv_ps; [exact P|].
        split; [exact SD|]. split; [apply clear_wf, WF|]. split; [exact X|]. cbn. discriminate.
      * pose proof P as []. split; cbn [set_ps ctl wps wcon wcost]; try assumption.
        -- intros q. unfold upd. destruct (Nat.eqb q p); [cbn; lia|auto].
        -- intros q Hq. destruct (pi_m0 q Hq) as [H1 H2]. split; [|exact H2]. unfold upd. destruct (Nat.eqb_spec q p) as [->|]; [cbn|]; lia.
    + destruct (update_live D _ (pi_ps _ _ P p L)) as [q [E [Lq _]]]. cbn [ps_step]. rewrite E. cbn. apply pinv_ps; assumption.
    + destruct (ensure_live D _ (pi_ps _ _ P p L)) as [q [E [Lq _]]]. cbn [ps_step]. rewrite E. cbn. apply pinv_ps; assumption.
  - (* new constraint *)
    pose proof P as []. split; cbn [ctl wps wcon wcost] in *; try assumption.
    + intros i. unfold upd. destruct (Nat.eqb i (ncon w)); [left; apply new_con_virgin|auto].
    + intros i Hi. pose proof (ri_con w pi_reg0 i Hi). unfold upd. rewrite (proj2 (Nat.eqb_neq _ _)) by lia. auto.
    + rewrite (total_rows_ext (wcon w)); [exact pi_eq0|]. intros i Hi. unfold upd. rewrite (ri_eq w pi_reg0) in Hi. apply of_type_in in Hi.
      pose proof (ri_con w pi_reg0 i (proj1 Hi)). rewrite (proj2 (Nat.eqb_neq _ _)) by lia. reflexivity.
    + rewrite (total_rows_ext (wcon w)); [exact pi_ineq0|]. intros i Hi. unfold upd. rewrite (ri_ineq w pi_reg0) in Hi. apply of_type_in in Hi.
      pose proof (ri_con w pi_reg0 i (proj1 Hi)). rewrite (proj2 (Nat.eqb_neq _ _)) by lia. reflexivity.
  - unfold with_con in *. destruct (_ <? _); [apply pinv_hcon; assumption|exact P].
  - unfold with_con in *. destruct (_ <? _); [apply pinv_hcon; assumption|exact P].
  - (* autoSpan of a constraint *)
    unfold with_con in *. destruct (_ <? _); [|exact P]. cbn [legal] in L.
    destruct (pi_con _ _ P i) as [V|V].
    + destruct L as [L|L].
      * pose proof (virgin_span j _ V L) as H. pose proof (span_kind j (wcon w i) (c_autoSpan j (wcon w i))) as K.
        destruct (c_autoSpan j (wcon w i)) as [c'|e c'|] eqn:E; cbn [out_map]; try contradiction.
        all: assert (ID : c_inited D (wcon w i) -> c' = wcon w i)
               by (intro I; rewrite (spanned_span j _ (proj1 (proj2 (proj2 I)))) in E; congruence).
        all: apply pinv_con; [exact P|apply K; [reflexivity|eauto]|left; exact H|intro I; rewrite (ID I); exact I|].
        all: intro I; rewrite (ID (pi_rcon _ _ P i I)); reflexivity.
      * rewrite (spanned_span j _ (proj1 (proj2 (proj2 (pi_rcon _ _ P i L))))). cbn [out_map].
        apply pinv_con; [exact P|split; reflexivity|apply P|tauto|reflexivity].
    + rewrite (spanned_span j _ (proj1 (proj2 (proj2 V)))). cbn [out_map].
      apply pinv_con; [exact P|split; reflexivity|apply P|tauto|reflexivity].
  - (* new cost *)
    pose proof P as []. split; cbn [ctl wps wcon wcost] in *; try assumption.
    + intros i. unfold upd. destruct (Nat.eqb i (ncost w)); [left; apply new_cost_fresh|auto].
    + intros i Hi. pose proof (ri_cost w pi_reg0 i Hi). unfold upd. rewrite (proj2 (Nat.eqb_neq _ _)) by lia. auto.
  - unfold with_cost in *. destruct (_ <? _); [apply pinv_hcost; assumption|exact P].
  - unfold with_cost in *. destruct (_ <? _); [apply pinv_hcost; assumption|exact P].
  - (* autoSpan of a cost *)
    unfold with_cost in *. destruct (_ <? _); [|exact P]. cbn [legal] in L.
    assert (ID : k_inited D (wcost w i) -> match out_map (set_cost w i) (k_autoSpan j (wcost w i)) with Ok w' | Throw _ w' => pinv D w' | UB => False end).
    { intro V. rewrite (inited_span j D _ V). cbn. apply pinv_cost; [exact P|right; exact V|tauto]. }
    destruct (pi_cost _ _ P i) as [V|V]; [|exact (ID V)].
    destruct L as [L|L]; [|apply ID, (pi_rcost _ _ P i L)].
    pose proof (fresh_span j _ V L) as H.
    destruct (k_autoSpan j (wcost w i)) as [c'|e c'|] eqn:E; cbn [out_map] in *; try contradiction.
    all: apply pinv_cost; [exact P|left; exact H|].
    all: intro I; rewrite (inited_span j D _ I) in E; (injection E as <-; exact I) || discriminate.
  - (* weights *)
    unfold with_cost in *. destruct (_ <? _); [|exact P]. cbn [legal] in L.
    destruct (weights_ok (wcost w i) v L) as [[u [E S]]|E]; rewrite E; cbn [out_map].
    + apply pinv_cost; [exact P| |intro; apply inited_w; assumption].
      destruct (pi_cost _ _ P i); [left; apply fresh_w|right; apply inited_w]; assumption.
    + apply pinv_cost; [exact P|apply P|tauto].
  - unfold with_cost in *. destruct (_ <? _); [|exact P].
    apply pinv_cost; [exact P| |intro; apply inited_w; [reflexivity|assumption]].
    destruct (pi_cost _ _ P i); [left; apply fresh_w|right; apply inited_w]; auto.
  - destruct (construct_ok j k r w P L) as [w' [E Pw]]. rewrite E. exact Pw.
  - destruct (init_controller_ok D j p w P (fits_opt _) L) as [w' [E Pw]]. rewrite E. exact Pw.
  - unfold with_cost in *. destruct (_ <? _); [|exact P]. pose proof (add_cost_ok j w i P L) as H. destruct (addCost j w i); auto.
  - unfold with_con in *. destruct (_ <? _); [|exact P]. pose proof (add_con_ok j w i P L) as H. destruct (addConstraint j w i); auto.
  - unfold with_cost in *. destruct (_ <? _); [|exact P]. unfold removeCost in *. pose proof (erase_first_spec i (spCost (ctl w))) as H.
    rewrite H in *. destruct (in_dec _ _ _); [|exact P].
    pose proof P as []. split; cbn [set_ctl set_costs ctl wps wcon wcost spC spEq spIneq spB spCost m_ps m_is m_qp nrEq nrIneq]; try assumption.
    intros k Hk. apply pi_rcost0. eapply remove_first_in; exact Hk.
  - unfold with_con in *. destruct (_ <? _); [|exact P].
    destruct (removeConstraint_ok w i (pi_reg _ _ P)) as [w' [E [RW [E1 [E2 [E3 [E4 E5]]]]]]]. rewrite E. cbn [of_opt].
    pose proof P as []. rewrite E5 in RW |- *. 
    split; cbn [set_ctl set_lists ctl wps wcon wcost spC spEq spIneq spB spCost m_ps m_is m_qp nrEq nrIneq]; try assumption; rewrite ?E1, ?E2, ?E3, ?E4.
    + intros k Hk. apply pi_rcon0. eapply remove_first_in; exact Hk.
    + split; [|apply pi_eq0]. etransitivity; [apply total_rows_remove|apply pi_eq0].
    + split; [|apply pi_ineq0]. etransitivity; [apply total_rows_remove|apply pi_ineq0].
    + etransitivity; [apply remove_len|exact pi_b0].
  - pose proof P as []. split; cbn in *; try assumption; try contradiction.
  - (* clearConstraints *)
    unfold clearConstraints in *. cbn [legal] in L. unfold has_system in L. destruct (m_ps (ctl w)) as [p|] eqn:Ep; [|congruence].
    destruct (pi_m _ _ P p Ep) as [Lp Zq]. destruct (pi_ps _ _ P p Lp) as [SD _].
    unfold clearConstraintMatrices in *.
    assert (EO : optSize (set_lists (ctl w) 0 0 [] [] [] []) (wps w p) = opt D (ctl w)).
    { destruct SD as [D1 [D2 [D3 [D4 [D5 D6]]]]]. unfold optSize, opt. cbn. rewrite D1, D6. reflexivity. }
    rewrite EO, fits_opt in *. cbn [obind of_opt] in *.
    pose proof P as []. split; cbn [set_ctl set_lists set_qpm ctl wps wcon wcost spC spEq spIneq spB spCost m_ps m_is m_qp nrEq nrIneq qQ qc qlb qub] in *; try assumption; try contradiction.
    + intros q Hq. rewrite Ep in Hq. injection Hq as <-. split; [exact Lp|]. unfold opt in *. destruct Zq as [Z1 [Z2 [Z3 _]]]. unfold qp_sized. cbn. auto.
    + split; [cbn; lia|reflexivity].
    + split; [cbn; lia|reflexivity].
    + cbn. lia.
  - apply pinv_ctl; [exact P|reflexivity..].
  - destruct L as [L1 [L2 [L3 L4]]]. destruct (solve_ok D e w P L1 L2 L3 L4) as [b [w' [E Pw]]]. rewrite E. exact Pw.
  - pose proof P as []. unfold resetX0Cost in *. destruct (m_is (ctl w)) as [s|] eqn:Es.
    + split; cbn in *; try assumption. intros q Hq. destruct (pi_m0 q Hq) as [H1 H2]. split; [exact H1|]. unfold opt in *. rewrite Es in H2. exact H2.
    + apply pinv_ctl; [exact P|reflexivity..].
  - pose proof P as []. unfold resetX0Bounds in *. destruct (m_is (ctl w)) as [s|] eqn:Es.
    + split; cbn in *; try assumption. intros q Hq. destruct (pi_m0 q Hq) as [H1 H2]. split; [exact H1|]. unfold opt in *. rewrite Es in H2. exact H2.
    + apply pinv_ctl; [exact P|reflexivity..].
Qed.
End Step.
