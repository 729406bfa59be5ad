(** FloatRows.v -- the rows of a constraint updated any number of times with an accurate arithmetic, and their meaning. *)
From Coq Require Import Permutation Qcabs.
From Verif Require Import Base Eigen Spec Preview SpecApi PreviewProofs AutoSpan Constraints ConstraintProofs SpecConstraints.
From Verif Require Import ConstraintMeaning Floats SpecFloats FloatProofs FloatPreview FloatConstraints.
Open Scope Qc_scope.

(** ** Preview systems *)
Lemma computed_inv F p : computed F p -> ps_wf p /\ vsize (x0 p) = xDim p.
Proof.
  intros [s [c [b [x [n [p1 [h [p0 [q [x' [E1 [H [E2 [E3 [Hx ->]]]]]]]]]]]]]]].
  destruct (f_run_inv F h p1 (system_inv _ _ _ _ _ _ _ E1) H) as [p0' [E2' [W _]]].
  rewrite E2 in E2'. injection E2' as <-.
  destruct (P_any F p0 W) as [q' [E3' [W' _]]]. rewrite E3 in E3'. injection E3' as <-.
  split; [apply xInit_wf; exact W'|exact Hx].
Qed.
Lemma fnear_xInit u K p x : fnear u K p -> fnear u K (ps_xInit p x).
Proof. intros [H1 H2 H3]. split; cbn; assumption. Qed.
Lemma computed_near u F p : accurate u F -> computed F p -> fnear u ((nrUStep p - 1) * (xDim p + 1)) p.
Proof.
  intros Ac [s [c [b [x [n [p1 [h [p0 [q [x' [E1 [H [E2 [E3 [Hx ->]]]]]]]]]]]]]]].
  destruct (f_run_inv F h p1 (system_inv _ _ _ _ _ _ _ E1) H) as [p0' [E2' [W _]]].
  rewrite E2 in E2'. injection E2' as <-.
  destruct (f_update_near u F p0 Ac W) as [q' [E3' [_ [_ [D1 [_ [D3 [_ [_ [_ [_ [_ [_ [_ N]]]]]]]]]]]]]].
  rewrite E3 in E3'. injection E3' as <-. apply fnear_xInit. cbn. rewrite D1, D3. exact N.
Qed.
(** an exact system of the same dimensions *)
Lemma wf_twin p : ps_wf p -> vsize (x0 p) = xDim p -> exists p', ready p' /\ same_dims p' p.
Proof.
  intros W X. destruct (updateSystem_ok p W) as [p' [_ [W2 [R2 [_ [F1 [F2 [F3 [F4 [F5 [F6 [F7 _]]]]]]]]]]]].
  exists p'. split; [|repeat split; assumption].
  split; try apply W2; [congruence|]. apply wf_previews; assumption.
Qed.
Lemma computed_twin F p : computed F p -> exists p', ready p' /\ same_dims p' p.
Proof. intro C. destruct (computed_inv F p C) as [W X]. apply wf_twin; assumption. Qed.
Lemma gcol_sum_wf ps G k i U : ps_wf ps -> vsize (x0 ps) = xDim ps -> (k < nrUStep ps)%nat ->
  sum (fullUDim ps) (fun c => gcol ps G k i c * U c) = apply (uDim ps) (at_ G) (control_at (uDim ps) U k) i.
Proof.
  intros W X Hk. destruct (wf_twin ps W X) as [p' [R [D1 [D2 [D3 [D4 [D5 D6]]]]]]].
  rewrite <- D3 in Hk. pose proof (gcol_sum p' R G k i U Hk) as H. unfold gcol in *. rewrite D2, D6 in H. exact H.
Qed.

(** ** Updates *)
Lemma f_c_update_ok u F ps c : accurate u F -> computed F ps -> ck c <> KCtrl -> ck c <> KCtrlB -> c_shape ps c ->
  exists c', f_c_update F ps c = Some c' /\ same_data c c' /\ c_shape ps c' /\
    forall r, (r < nrConstr c)%nat -> frow_of u ((nrUStep ps - 1) * (xDim ps + 1)) ps c c' r.
Proof.
  intros Ac C N1 N2 Sh. destruct (computed_inv F ps C) as [W X]. pose proof (computed_near u F ps Ac C) as FN.
  unfold f_c_update. destruct (ck c) eqn:K; try congruence.
  - apply (f_traj_update_ok u F Ac _ ps W X FN c K Sh).
  - apply (f_mixed_update_ok u F Ac _ ps W X FN c K Sh).
  - apply (f_trajB_update_ok u F Ac _ ps W X FN c K Sh).
Qed.
Lemma same_data_refl c : same_data c c.
Proof. repeat split. Qed.
Lemma f_updates_app F : forall pss ps c, f_c_updates F (pss ++ (ps :: nil)) c = (c' <- f_c_updates F pss c ;; f_c_update F ps c').
Proof.
  induction pss as [|p t IH]; intros ps c; cbn [app f_c_updates obind].
  - destruct (f_c_update F ps c); reflexivity.
  - destruct (f_c_update F p c) as [c'|]; cbn [obind]; [apply IH|reflexivity].
Qed.
Lemma f_updates_keep u F ps0 : accurate u F -> forall pss c, ck c <> KCtrl -> ck c <> KCtrlB -> c_shape ps0 c ->
  Forall (fun p => computed F p /\ same_dims p ps0) pss ->
  exists c', f_c_updates F pss c = Some c' /\ same_data c c' /\ c_shape ps0 c'.
Proof.
  intro Ac. induction pss as [|p t IH]; intros c N1 N2 Sh H.
  - exists c. split; [reflexivity|]. split; [apply same_data_refl|exact Sh].
  - inversion H as [|? ? [C D] Ht]; subst. cbn [f_c_updates].
    destruct (f_c_update_ok u F p c Ac C N1 N2) as [c' [E [Sd [S _]]]].
    { eapply c_shape_dims; [apply same_dims_sym; exact D|exact Sh]. }
    rewrite E. cbn [obind].
    destruct (IH c') as [c2 [E2 [Sd2 S2]]]; [rewrite (proj1 Sd); exact N1|rewrite (proj1 Sd); exact N2| |exact Ht|].
    { eapply c_shape_dims; eassumption. }
    exists c2. split; [exact E2|]. split; [eapply same_data_trans; eassumption|exact S2].
Qed.

(** ** What the rows stand for *)
Definition c_size (ps : psys) (c : constr) (r : nat) (x U : nat -> Qc) : Qc :=
  match ck c with
  | KTraj => if fullSizeEntry c then apply (fullXDim ps) (mabs (at_ (cE c))) (stacked_size ps x U) r
             else apply (xDim ps) (mabs (at_ (cE c))) (size_of ps x U (r / rows (cE c))) (r mod rows (cE c))
  | KMixed => if fullSizeEntry c
              then apply (fullXDim ps) (mabs (at_ (cE c))) (stacked_size ps x U) r + apply (fullUDim ps) (mabs (at_ (cG c))) (vabs U) r
              else apply (xDim ps) (mabs (at_ (cE c))) (size_of ps x U (r / rows (cE c))) (r mod rows (cE c))
                   + apply (uDim ps) (mabs (at_ (cG c))) (control_at (uDim ps) (vabs U) (r / rows (cE c))) (r mod rows (cE c))
  | KTrajB => let nL := (length (lowerLines c) * tb_steps ps c)%nat in
              stacked_size ps x U (if (r <? nL)%nat then tb_src ps (lowerLines c) r else tb_src ps (upperLines c) (r - nL))
  | _ => 0
  end.

Lemma stacked_blk ps x U k q : (q < xDim ps)%nat -> stacked_state ps x U (k * xDim ps + q)%nat = state_of ps x U k q.
Proof. intro H. unfold stacked_state. rewrite blk_quot, blk_rem by exact H. reflexivity. Qed.
Lemma stacked_blk_size ps x U k q : (q < xDim ps)%nat -> stacked_size ps x U (k * xDim ps + q)%nat = size_of ps x U k q.
Proof. intro H. unfold stacked_size. rewrite blk_quot, blk_rem by exact H. reflexivity. Qed.
Lemma abs_0 : Qcabs 0 = 0.
Proof. apply Qcabs_pos. apply Qcle_refl. Qed.
Lemma abs_1 : Qcabs 1 = 1.
Proof. apply Qcabs_pos. unfold Qcle; cbn; lra. Qed.

Lemma rlin_eq ps c r x U : ps_wf ps -> vsize (x0 ps) = xDim ps -> c_shape ps c -> (r < nrConstr c)%nat -> ck c <> KCtrl -> ck c <> KCtrlB ->
  rlin ps (fc_p ps c) (fc_e c r) (fc_rho ps c r) (fc_g ps c r) x U = c_lin ps c r x U.
Proof.
  intros W X. unfold c_shape, rlin, c_lin, fc_p, fc_e, fc_rho, fc_g. intros Sh Hr N1 N2.
  destruct (ck c); try congruence.
  - rewrite (sum_zero (fullUDim ps)) by (intros; ring). destruct (fullSizeEntry c).
    + unfold apply. ring.
    + unfold apply. rewrite Qcplus_0_r. apply sum_ext; intros q Hq. rewrite stacked_blk by exact Hq. reflexivity.
  - destruct (fullSizeEntry c).
    + reflexivity.
    + destruct Sh as [_ [_ [_ [_ [_ [Hn _]]]]]].
      assert (Hk : (r / rows (cE c) < nrUStep ps)%nat) by (apply Nat.div_lt_upper_bound; [intro E; rewrite E in *; lia|lia]).
      rewrite gcol_sum_wf by assumption. f_equal. unfold apply. apply sum_ext; intros q Hq. rewrite stacked_blk by exact Hq. reflexivity.
  - rewrite (sum_zero (fullUDim ps)) by (intros; ring). cbn [sum]. ring.
Qed.
Lemma rsize_eq ps c r x U : ps_wf ps -> vsize (x0 ps) = xDim ps -> c_shape ps c -> (r < nrConstr c)%nat -> ck c <> KCtrl -> ck c <> KCtrlB ->
  rsize ps (fc_p ps c) (fc_e c r) (fc_rho ps c r) (fc_g ps c r) x U = c_size ps c r x U.
Proof.
  intros W X. unfold c_shape, rsize, c_size, fc_p, fc_e, fc_rho, fc_g. intros Sh Hr N1 N2.
  destruct (ck c); try congruence.
  - rewrite (sum_zero (fullUDim ps)) by (intros; rewrite abs_0; ring). destruct (fullSizeEntry c).
    + unfold apply, mabs. ring.
    + unfold apply, mabs. rewrite Qcplus_0_r. apply sum_ext; intros q Hq. rewrite stacked_blk_size by exact Hq. reflexivity.
  - destruct (fullSizeEntry c).
    + reflexivity.
    + destruct Sh as [_ [_ [_ [_ [_ [Hn _]]]]]].
      assert (Hk : (r / rows (cE c) < nrUStep ps)%nat) by (apply Nat.div_lt_upper_bound; [intro E; rewrite E in *; lia|lia]).
      f_equal.
      * unfold apply, mabs. apply sum_ext; intros q Hq. rewrite stacked_blk_size by exact Hq. reflexivity.
      * rewrite <- (gcol_sum_wf ps (Mx (rows (cG c)) (cols (cG c)) (mabs (at_ (cG c)))) _ _ (vabs U) W X Hk).
        apply sum_ext; intros q Hq. unfold vabs. f_equal. unfold gcol. cbn [at_]. unfold mabs.
        destruct (Nat.eqb _ _); [reflexivity|apply abs_0].
  - rewrite (sum_zero (fullUDim ps)) by (intros; rewrite abs_0; ring). cbn [sum]. rewrite abs_1. ring.
Qed.
Lemma fc_rho_ok ps c r q : ps_wf ps -> c_shape ps c -> (r < nrConstr c)%nat -> ck c <> KCtrl -> ck c <> KCtrlB ->
  (q < fc_p ps c)%nat -> (fc_rho ps c r q < fullXDim ps)%nat.
Proof.
  intros W Sh Hr N1 N2. unfold fc_p, fc_rho. pose proof (wf_fx ps W) as EX. pose proof (wf_nx ps W) as EN.
  destruct (ck c) eqn:K; try congruence.
  - unfold c_shape in Sh. rewrite K in Sh. destruct (fullSizeEntry c); [auto|]. intro Hq.
    destruct Sh as [_ [_ [_ Hn]]]. rewrite EX.
    assert (Hk : (r / rows (cE c) < nrXStep ps)%nat) by (apply Nat.div_lt_upper_bound; [intro E; rewrite E in *; lia|lia]).
    nia.
  - unfold c_shape in Sh. rewrite K in Sh. destruct (fullSizeEntry c); [auto|]. intro Hq.
    destruct Sh as [_ [_ [_ [_ [_ [Hn _]]]]]]. rewrite EX, EN.
    assert (Hk : (r / rows (cE c) < nrUStep ps)%nat) by (apply Nat.div_lt_upper_bound; [intro E; rewrite E in *; lia|lia]).
    nia.
  - intros _. destruct (tb_facts ps W c K Sh) as [Hnr [HL HU]]. cbv zeta.
    destruct (Nat.ltb_spec r (length (lowerLines c) * tb_steps ps c)) as [L|L]; unfold tb_src.
    + apply HL; [apply Nat.div_lt_upper_bound; [intro E; rewrite E in L; lia|exact L]|].
      apply Nat.mod_upper_bound. intro E. rewrite E in L. lia.
    + assert (H : (r - length (lowerLines c) * tb_steps ps c < length (upperLines c) * tb_steps ps c)%nat) by lia.
      apply HU; [apply Nat.div_lt_upper_bound; [intro E; rewrite E in H; lia|exact H]|].
      apply Nat.mod_upper_bound. intro E. rewrite E in H. lia.
Qed.

Lemma same_data_obj c c' : same_data c c' -> ck c <> KCtrl -> ck c <> KCtrlB -> same_obj c c'.
Proof. intros H N1 N2. split; [exact H|]. intros _ [E|E]; congruence. Qed.
Lemma same_data_size ps c c' r x U : same_data c c' -> c_size ps c' r x U = c_size ps c r x U.
Proof.
  intros [D1 [D2 [D3 [D4 [D5 [D6 [D7 [D8 [D9 [D10 [D11 D12]]]]]]]]]]].
  unfold c_size, tb_steps. rewrite D1. destruct (ck c) eqn:Q; rewrite ?D4, ?D6, ?D7, ?D11, ?D12; reflexivity.
Qed.
Lemma same_data_p ps c c' : same_data c c' -> fc_p ps c' = fc_p ps c.
Proof. intros [D1 [D2 [D3 [D4 _]]]]. unfold fc_p. rewrite D1, D4. reflexivity. Qed.

Definition f_rows_as (u : Qc) (ps : psys) (c c' : constr) : Prop :=
  let e := (nrUStep ps * (xDim ps + 1) + fc_p ps c + 1)%nat in
  forall r, (r < nrConstr c)%nat ->
    (forall U, row_error u e (apply (fullUDim ps) (at_ (cA c')) U r) (vget (cb c') r)
       (c_lin ps c r (vget (x0 ps)) U) (c_rhs ps c r) (c_size ps c r (vget (x0 ps)) U)) /\
    (forall x U, row_error u e (apply (xDim ps) (at_ (cY c')) x r + apply (fullUDim ps) (at_ (cA c')) U r) (vget (cz c') r)
       (c_lin ps c r x U) (c_rhs ps c r) (c_size ps c r x U)).

Lemma f_updates_ok u F ps0 pss ps c : accurate u F -> ck c <> KCtrl -> ck c <> KCtrlB -> c_shape ps0 c ->
  f_solves_with F ps0 pss ps ->
  exists c', f_c_updates F (pss ++ (ps :: nil)) c = Some c' /\ same_data c c' /\ c_shape ps c' /\ f_rows_as u ps c c'.
Proof.
  intros Ac N1 N2 Sh S. apply Forall_app in S. destruct S as [F1 F2]. inversion F2 as [|? ? [C D] _]; subst.
  destruct (f_updates_keep u F ps0 Ac pss c N1 N2 Sh F1) as [c1 [E1 [O1 S1]]].
  assert (M1 : ck c1 <> KCtrl) by (rewrite (proj1 O1); exact N1).
  assert (M2 : ck c1 <> KCtrlB) by (rewrite (proj1 O1); exact N2).
  assert (S1' : c_shape ps c1) by (eapply c_shape_dims; [apply same_dims_sym; exact D|exact S1]).
  destruct (f_c_update_ok u F ps c1 Ac C M1 M2 S1') as [c2 [E2 [Sd [S2 R]]]].
  exists c2. rewrite f_updates_app, E1. cbn [obind]. split; [exact E2|].
  split; [eapply same_data_trans; eassumption|]. split; [exact S2|].
  destruct (computed_inv F ps C) as [W X]. pose proof (wf_nu ps W) as HN.
  assert (Cn : nrConstr c1 = nrConstr c) by apply O1.
  assert (Ob : same_obj c c1) by (apply same_data_obj; assumption).
  intros r Hr. rewrite <- Cn in Hr. specialize (R r Hr). unfold frow_of in R.
  rewrite <- (same_data_p ps c c1 O1).
  replace (nrUStep ps * (xDim ps + 1) + fc_p ps c1 + 1)%nat
    with ((nrUStep ps - 1) * (xDim ps + 1) + fc_p ps c1 + xDim ps + 2)%nat
    by (destruct (nrUStep ps) as [|N']; [lia|]; replace (S N' - 1)%nat with N' by lia; lia).
  split.
  - intro U. rewrite <- (same_obj_lin ps c c1 r _ U Ob), <- (same_obj_rhs ps c c1 r Ob), <- (same_data_size ps c c1 r _ U O1).
    rewrite <- rlin_eq, <- rsize_eq by assumption.
    eapply (frow_error u F Ac _ ps W); [|exact R]. intros q Hq. apply fc_rho_ok; assumption.
  - intros x U. rewrite <- (same_obj_lin ps c c1 r _ U Ob), <- (same_obj_rhs ps c c1 r Ob), <- (same_data_size ps c c1 r _ U O1).
    rewrite <- rlin_eq, <- rsize_eq by assumption.
    eapply (frow_error_ext u F Ac _ ps W); [|exact R]. intros q Hq. apply fc_rho_ok; assumption.
Qed.

(** ** The documented meaning of each class *)
Section Meaning.
Variables (u : Qc) (j : junk) (ps0 ps : psys) (D : same_dims ps ps0).

Lemma traj_rounded_ok E f ineq c x U l b : initializeConstraint j ps0 (mkTraj E f ineq) = Ok c ->
  (forall r, (r < nrConstr c)%nat -> row_error u (nrUStep ps * (xDim ps + 1) + fc_p ps c + 1) (l r) (b r)
     (c_lin ps c r x U) (c_rhs ps c r) (c_size ps c r x U)) ->
  traj_rounded u ps E f x U l b.
Proof.
  destruct D as [D1 [D2 [D3 [D4 [D5 D6]]]]]. intros H. apply init_keeps in H. unfold init_kept in H. cbn in H.
  destruct H as [K [I [_ [_ [KE [Kf [Hr [Hs [Hn Hc]]]]]]]]].
  unfold traj_rounded, c_lin, c_rhs, c_size, fc_p. cbv zeta. rewrite K, KE, Kf, Hs, Hn. rewrite <- D1, <- D4.
  destruct (Nat.eqb (cols E) (xDim ps)); cbn [negb].
  - intros G k i Hk Hi. specialize (G (k * rows E + i)%nat ltac:(nia)). rewrite blk_quot, blk_rem in G by exact Hi. exact G.
  - intros G i Hi. apply G. exact Hi.
Qed.
Lemma mixed_rounded_ok E G f ineq c x U l b : initializeConstraint j ps0 (mkMixed E G f ineq) = Ok c ->
  (forall r, (r < nrConstr c)%nat -> row_error u (nrUStep ps * (xDim ps + 1) + fc_p ps c + 1) (l r) (b r)
     (c_lin ps c r x U) (c_rhs ps c r) (c_size ps c r x U)) ->
  mixed_rounded u ps E G f x U l b.
Proof.
  destruct D as [D1 [D2 [D3 [D4 [D5 D6]]]]]. intros H. apply init_keeps in H. unfold init_kept in H. cbn in H.
  destruct H as [K [I [_ [_ [KE [KG [Kf [Hr [Hr2 [Hs [Hn Hc]]]]]]]]]]].
  unfold mixed_rounded, c_lin, c_rhs, c_size, fc_p. cbv zeta. rewrite K, KE, KG, Kf, Hs, Hn. rewrite <- D1, <- D2, <- D3.
  destruct (Nat.eqb (cols E) (xDim ps) && Nat.eqb (cols G) (uDim ps)); cbn [negb].
  - intros M k i Hk Hi. specialize (M (k * rows E + i)%nat ltac:(nia)). rewrite blk_quot, blk_rem in M by exact Hi. exact M.
  - intros M i Hi. apply M. exact Hi.
Qed.

Lemma trajB_rounded_ok lo up c x U l b : ps_wf ps -> initializeConstraint j ps0 (mkTrajB lo up) = Ok c ->
  (forall r, (r < nrConstr c)%nat -> row_error u (nrUStep ps * (xDim ps + 1) + fc_p ps c + 1) (l r) (b r)
     (c_lin ps c r x U) (c_rhs ps c r) (c_size ps c r x U)) ->
  trajB_rounded u ps lo up x U (nrConstr c) l b.
Proof.
  intros W H M. destruct D as [D1 [D2 [D3 [D4 [D5 D6]]]]]. apply init_keeps in H. unfold init_kept in H. cbn in H.
  destruct H as [K [I [L1 [L2 [K1 [K2 [Hr [Hs [Hn Hc]]]]]]]]].
  rewrite <- D1, <- D5 in Hc. rewrite <- D1 in Hs, Hn. rewrite <- D4 in Hn.
  pose proof (wf_fx ps W) as EX.
  set (ll := finite_lower_lines lo) in *. set (ul := finite_upper_lines up) in *.
  set (steps := if Nat.eqb (vsize lo) (xDim ps) then nrXStep ps else 1%nat).
  assert (Hst : tb_steps ps c = steps).
  { unfold tb_steps, steps. rewrite Hs. destruct (Nat.eqb (vsize lo) (xDim ps)); reflexivity. }
  assert (Hnr : nrConstr c = (length ll * steps + length ul * steps)%nat).
  { rewrite Hn. unfold steps. destruct (Nat.eqb (vsize lo) (xDim ps)); lia. }
  (* line [i] of the bound at pass [p] of the loop, and its place *)
  set (kk := fun p i => if Nat.eqb (vsize lo) (xDim ps) then p else (i / xDim ps)%nat).
  set (ii := fun i : nat => if Nat.eqb (vsize lo) (xDim ps) then i else (i mod xDim ps)%nat).
  assert (Pl : forall p i, (p < steps)%nat -> (i < vsize lo)%nat ->
    (kk p i < nrXStep ps)%nat /\ (ii i < xDim ps)%nat /\ ((i + xDim ps * p) / xDim ps = kk p i)%nat /\
    ((i + xDim ps * p) mod xDim ps = ii i)%nat /\
    vpart (xDim ps) lo (kk p i) (ii i) = vget lo i /\ vpart (xDim ps) up (kk p i) (ii i) = vget up i).
  { intros p i Hp Hi. unfold kk, ii, vpart. unfold steps in Hp. rewrite <- Hr.
    destruct (Nat.eqb_spec (vsize lo) (xDim ps)) as [E|E].
    - rewrite E in Hi. replace (i + xDim ps * p)%nat with (p * xDim ps + i)%nat by lia.
      rewrite blk_quot, blk_rem by exact Hi. repeat split; auto.
    - assert (p = 0)%nat by lia. subst p. rewrite Nat.mul_0_r, Nat.add_0_r.
      destruct Hc as [Hc|Hc]; [congruence|].
      assert (xDim ps <> 0)%nat by (intro Z; rewrite Z in EX; lia).
      split; [apply Nat.div_lt_upper_bound; [assumption|lia]|].
      split; [apply Nat.mod_upper_bound; assumption|].
      rewrite (Nat.mul_comm (i / xDim ps)), <- Nat.div_mod by assumption. auto. }
  assert (Lo : forall p q, (p < steps)%nat -> (q < length ll)%nat ->
     row_error u (nrUStep ps * (xDim ps + 1) + 2) (l (p * length ll + q)%nat) (b (p * length ll + q)%nat)
       (stacked_state ps x U (nth q ll 0%nat + xDim ps * p)) (vget lo (nth q ll 0%nat))
       (stacked_size ps x U (nth q ll 0%nat + xDim ps * p))).
  { intros p q Hp Hq. specialize (M (p * length ll + q)%nat ltac:(nia)).
    unfold c_lin, c_rhs, c_size, fc_p in M. rewrite K, L1, L2, Hst, K1 in M. cbv zeta in M.
    rewrite (proj2 (Nat.ltb_lt _ _)) in M by nia. unfold tb_src in M. rewrite blk_quot, blk_rem in M by exact Hq.
    rewrite <- Nat.add_assoc in M. exact M. }
  assert (Up : forall p q, (p < steps)%nat -> (q < length ul)%nat ->
     row_error u (nrUStep ps * (xDim ps + 1) + 2) (l (length ll * steps + (p * length ul + q))%nat)
       (b (length ll * steps + (p * length ul + q))%nat)
       (stacked_state ps x U (nth q ul 0%nat + xDim ps * p)) (vget up (nth q ul 0%nat))
       (stacked_size ps x U (nth q ul 0%nat + xDim ps * p))).
  { intros p q Hp Hq. specialize (M (length ll * steps + (p * length ul + q))%nat ltac:(nia)).
    unfold c_lin, c_rhs, c_size, fc_p in M. rewrite K, L1, L2, Hst, K2 in M. cbv zeta in M.
    rewrite (proj2 (Nat.ltb_ge _ _)) in M by nia. unfold tb_src in M.
    replace (length ll * steps + (p * length ul + q) - length ll * steps)%nat with (p * length ul + q)%nat in M by lia.
    rewrite blk_quot, blk_rem in M by exact Hq. rewrite <- Nat.add_assoc in M. exact M. }
  assert (Ll : forall q, (q < length ll)%nat -> (nth q ll 0 < vsize lo)%nat /\ vget lo (nth q ll 0%nat) <> NInf).
  { intros q Hq. pose proof (nth_In ll 0%nat Hq) as HI. unfold ll, finite_lower_lines in HI. apply filter_In in HI.
    destruct HI as [H1 H2]. apply in_seq in H1. split; [unfold ll, finite_lower_lines; lia|].
    intro Z. unfold ll, finite_lower_lines in Z. rewrite Z in H2. discriminate H2. }
  assert (Lu : forall q, (q < length ul)%nat -> (nth q ul 0 < vsize lo)%nat /\ vget up (nth q ul 0%nat) <> PInf).
  { intros q Hq. pose proof (nth_In ul 0%nat Hq) as HI. unfold ul, finite_upper_lines in HI. apply filter_In in HI.
    destruct HI as [H1 H2]. apply in_seq in H1. split; [rewrite Hr; unfold ul, finite_upper_lines; lia|].
    intro Z. unfold ul, finite_upper_lines in Z. rewrite Z in H2. discriminate H2. }
  unfold trajB_rounded. cbv zeta. split.
  - intros r Hrr. rewrite Hnr in Hrr. destruct (Nat.lt_ge_cases r (length ll * steps)) as [L|L].
    + rewrite Nat.mul_comm in L. destruct (blk_div' _ _ _ L) as [p [q [Hp [Hq ->]]]].
      destruct (Ll q Hq) as [B1 B2]. destruct (Pl p _ Hp B1) as [P1 [P2 [P3 [P4 [P5 P6]]]]].
      exists (kk p (nth q ll 0%nat)), (ii (nth q ll 0%nat)), (vget lo (nth q ll 0%nat)).
      split; [exact P1|]. split; [exact P2|]. split; [left; split; [symmetry; exact P5|exact B2]|].
      specialize (Lo p q Hp Hq). unfold stacked_state, stacked_size in Lo. rewrite P3, P4 in Lo. exact Lo.
    + assert (L' : (r - length ll * steps < steps * length ul)%nat) by lia.
      destruct (blk_div' _ _ _ L') as [p [q [Hp [Hq E]]]].
      replace r with (length ll * steps + (p * length ul + q))%nat by lia.
      destruct (Lu q Hq) as [B1 B2]. destruct (Pl p _ Hp B1) as [P1 [P2 [P3 [P4 [P5 P6]]]]].
      exists (kk p (nth q ul 0%nat)), (ii (nth q ul 0%nat)), (vget up (nth q ul 0%nat)).
      split; [exact P1|]. split; [exact P2|]. split; [right; split; [symmetry; exact P6|exact B2]|].
      specialize (Up p q Hp Hq). unfold stacked_state, stacked_size in Up. rewrite P3, P4 in Up. exact Up.
  - intros k i Hk Hi.
    set (p := if Nat.eqb (vsize lo) (xDim ps) then k else 0%nat).
    set (s := if Nat.eqb (vsize lo) (xDim ps) then i else (k * xDim ps + i)%nat).
    assert (Hp : (p < steps)%nat) by (unfold p, steps; destruct (Nat.eqb (vsize lo) (xDim ps)); lia).
    assert (Hs' : (s < vsize lo)%nat).
    { unfold s. destruct (Nat.eqb_spec (vsize lo) (xDim ps)) as [E|E]; [lia|]. destruct Hc as [Hc|Hc]; [congruence|].
      rewrite Hc, EX. nia. }
    destruct (Pl p s Hp Hs') as [P1 [P2 [P3 [P4 [P5 P6]]]]].
    assert (Ek : kk p s = k) by (unfold kk, p, s; destruct (Nat.eqb (vsize lo) (xDim ps)); [reflexivity|apply blk_quot; exact Hi]).
    assert (Ei : ii s = i) by (unfold ii, s; destruct (Nat.eqb (vsize lo) (xDim ps)); [reflexivity|apply blk_rem; exact Hi]).
    rewrite Ek, Ei in *. rewrite P5, P6. split; intro Z.
    + assert (HI : In s ll).
      { unfold ll, finite_lower_lines. apply filter_In. split; [apply in_seq; lia|].
        destruct (vget lo s); [congruence|reflexivity|reflexivity]. }
      destruct (In_nth ll s 0%nat HI) as [q [Hq Eq]]. exists (p * length ll + q)%nat. split; [rewrite Hnr; nia|].
      specialize (Lo p q Hp Hq). rewrite Eq in Lo. unfold stacked_state, stacked_size in Lo. rewrite P3, P4 in Lo. exact Lo.
    + assert (HI : In s ul).
      { unfold ul, finite_upper_lines. apply filter_In. split; [apply in_seq; rewrite <- Hr; lia|].
        destruct (vget up s); [reflexivity|reflexivity|congruence]. }
      destruct (In_nth ul s 0%nat HI) as [q [Hq Eq]]. exists (length ll * steps + (p * length ul + q))%nat.
      split; [rewrite Hnr; nia|].
      specialize (Up p q Hp Hq). rewrite Eq in Up. unfold stacked_state, stacked_size in Up. rewrite P3, P4 in Up. exact Up.
Qed.
End Meaning.

(** ** Rows nearly met *)
Lemma row_error_meets u k l b lhs rhs size tol ineq : row_error u k l b lhs rhs size -> meets tol ineq l b ->
  meets (tol + growth u k * (size + ext_abs rhs)) ineq lhs rhs.
Proof.
  unfold row_error. destruct rhs as [|f|]; [intros -> H; exact H| |intros -> H; exact H].
  intros [q [-> H]]. cbn [meets ext_abs]. revert H. generalize (growth u k * (size + Qcabs f)). intros g H.
  apply Qcabs_Qcle_condition in H. destruct H as [H1 H2]. destruct ineq; intro M.
  - revert M H1 H2. qc_lra.
  - apply Qcabs_Qcle_condition in M. apply Qcabs_Qcle_condition. destruct M as [M1 M2]. split; revert M1 M2 H1 H2; qc_lra.
Qed.
