(** FloatCostRun.v -- from the entries of the computed matrices to the value of the objective (FloatCostProofs.v has the entries). *)
From Coq Require Import Permutation Qcabs.
From Verif Require Import Base Eigen Spec Preview SpecApi PreviewProofs AutoSpan Constraints ConstraintProofs SpecConstraints.
From Verif Require Import Costs SpecCosts CostProofs ConstraintMeaning CostMeaning.
From Verif Require Import Floats SpecFloats FloatProofs FloatPreview FloatConstraints FloatRows FloatCosts SpecFloatCosts FloatCostProofs SpecEndToEnd.
Open Scope Qc_scope.

(** ** Any class, any history *)
Definition f_exact (u : Qc) (lev : nat) (ps : psys) (c c' : cost) : Prop :=
  (forall i j, (i < fullUDim ps)%nat -> (j < fullUDim ps)%nat ->
     near u lev (at_ (kQ c') i j) (kQf (pex ps) c i j) (kQf (pab ps) (absC c) i j)) /\
  (forall i j, (i < xDim ps)%nat -> (j < fullUDim ps)%nat ->
     near u lev (at_ (kE c') i j) (kEf (pex ps) c i j) (kEf (pab ps) (absC c) i j)) /\
  (forall j, (j < fullUDim ps)%nat -> near u lev (vget (kf c') j) (kff (pex ps) c j) (kff (pab ps) (absC c) j)) /\
  (forall j, (j < fullUDim ps)%nat -> near u lev (vget (kc c') j)
     (sum (xDim ps) (fun i => kEf (pex ps) c i j * vget (x0 ps) i) + kff (pex ps) c j)
     (sum (xDim ps) (fun i => kEf (pab ps) (absC c) i j * Qcabs (vget (x0 ps) i)) + kff (pab ps) (absC c) j)).
Lemma f_result_exact u ps L lev c c' : 0 <= u -> f_result u ps L c c' -> (L + xDim ps + 2 <= lev)%nat -> f_exact u lev ps c c'.
Proof.
  intros Hu [H1 [H2 [H3 H4]]] Le.
  split; [|split; [|split]].
  - intros i j Hi Hj. eapply near_mono; [exact Hu|exact (H1 i j Hi Hj)|lia].
  - intros i j Hi Hj. eapply near_mono; [exact Hu|exact (H2 i j Hi Hj)|lia].
  - intros j Hj. eapply near_mono; [exact Hu|exact (H3 j Hj)|lia].
  - intros j Hj. eapply near_mono; [exact Hu|exact (H4 j Hj)|lia].
Qed.

Lemma f_update_ok u F ps c : accurate u F -> computed F ps -> k_shape ps c -> k_entry ps c -> k_zero ps c ->
  exists c', f_k_update F ps c = Some c' /\ k_same c c' /\ k_shape ps c' /\ f_exact u (cost_roundings ps c) ps c c'.
Proof.
  intros Ac C S En Z. pose proof (proj1 Ac) as Hu. destruct (computed_inv F ps C) as [W X0].
  pose proof (computed_near u F ps Ac C) as FN. pose proof (wf_nu ps W) as HN.
  set (K := ((nrUStep ps - 1) * (xDim ps + 1))%nat) in *.
  assert (EK : (K + xDim ps + 1 = nrUStep ps * (xDim ps + 1))%nat).
  { unfold K. destruct (nrUStep ps) as [|N]; [lia|]. replace (Datatypes.S N - 1)%nat with N by lia. lia. }
  assert (D : exists c' L, f_k_update F ps c = Some c' /\ k_same c c' /\ k_shape ps c' /\ f_result u ps L c c' /\
    (L + xDim ps + 2 <= cost_roundings ps c)%nat).
  { unfold cost_roundings, roundings. destruct (kk c) eqn:HK; [destruct (kfull c) eqn:HF| |destruct (kfull c) eqn:HF|destruct (kfull c) eqn:HF];
      unfold k_entry in En; rewrite HK in En; try rewrite HF in En.
    - destruct (f_trajC_full_ok u F Ac K ps W X0 FN c HK HF S) as [c' [E [Sm [S' R]]]].
      exists c'. eexists. repeat (split; [eassumption|]). destruct (Nat.eqb (cols (kM c)) (xDim ps)); [discriminate En|]. lia.
    - destruct (f_trajC_step_ok u F Ac K ps W X0 FN c HK HF S Z) as [c' [E [Sm [S' R]]]].
      exists c'. eexists. repeat (split; [eassumption|]). destruct (Nat.eqb (cols (kM c)) (xDim ps)); [lia|discriminate En].
    - destruct (f_targetC_ok u F Ac K ps W X0 FN c HK S) as [c' [E [Sm [S' R]]]].
      exists c'. eexists. repeat (split; [eassumption|]). lia.
    - destruct (f_ctrlC_full_ok u F Ac ps c HK HF S) as [c' [E [Sm [S' R]]]].
      exists c'. eexists. repeat (split; [eassumption|]). lia.
    - destruct (f_ctrlC_step_ok u F Ac ps W X0 c HK HF S) as [c' [E [Sm [S' R]]]].
      exists c'. eexists. repeat (split; [eassumption|]). lia.
    - destruct (f_mixedC_full_ok u F Ac K ps W X0 FN c HK HF S) as [c' [E [Sm [S' R]]]].
      exists c'. eexists. repeat (split; [eassumption|]).
      destruct (Nat.eqb (cols (kM c)) (xDim ps) && Nat.eqb (cols (kN c)) (uDim ps)); [discriminate En|]. lia.
    - destruct (f_mixedC_step_ok u F Ac K ps W X0 FN c HK HF S Z) as [c' [E [Sm [S' R]]]].
      exists c'. eexists. repeat (split; [eassumption|]).
      destruct (Nat.eqb (cols (kM c)) (xDim ps) && Nat.eqb (cols (kN c)) (uDim ps)); [lia|discriminate En]. }
  destruct D as [c' [L [E [Sm [S' [R Le]]]]]]. exists c'. repeat (split; [assumption|]).
  eapply f_result_exact; eassumption.
Qed.

Lemma f_k_updates_app F h w ps c :
  f_k_updates F (h ++ ((w, ps) :: nil)) c = (c' <- f_k_updates F h c ;; f_k_update F ps (set_w c' w)).
Proof.
  revert c. induction h as [|[w1 p1] t IH]; intro c; cbn [f_k_updates app].
  - cbn [obind]. destruct (f_k_update F ps (set_w c w)); reflexivity.
  - destruct (f_k_update F p1 (set_w c w1)); cbn [obind]; [apply IH|reflexivity].
Qed.
Lemma f_k_updates_keep u F ps0 h : accurate u F -> forall c, k_shape ps0 c -> k_entry ps0 c -> k_acc c = false ->
  f_cost_history F ps0 (vsize (kp c)) h ->
  exists c', f_k_updates F h c = Some c' /\ k_same_data c c' /\ k_shape ps0 c'.
Proof.
  intro Ac. induction h as [|[w p] t IH]; intros c S En Na H; cbn [f_k_updates].
  - exists c. split; [reflexivity|]. split; [repeat split|exact S].
  - inversion H as [|? ? [Hw [C D]] Ht]; subst. cbn in Hw, C, D.
    assert (D' := same_dims_sym _ _ D).
    destruct (f_update_ok u F p (set_w c w) Ac C) as [c1 [E [[M1 [M2 [M3 [M4 [M5 M6]]]]] [S1 _]]]].
    { eapply k_shape_dims; [exact D'|]. apply k_shape_w; assumption. }
    { eapply k_entry_dims; [exact D'|]. exact En. }
    { intro A. exfalso. unfold k_acc in *. cbn in A. rewrite Na in A. discriminate A. }
    rewrite E. cbn [obind]. cbn in M1, M2, M3, M4, M5, M6.
    destruct (IH c1) as [c2 [E2 [[N1 [N2 [N3 [N4 N5]]]] S2]]].
    { eapply k_shape_dims; eassumption. }
    { unfold k_entry in *. rewrite M1, M2, M3, M4. exact En. }
    { unfold k_acc in *. rewrite M1, M2. exact Na. }
    { rewrite M5. exact Ht. }
    exists c2. split; [exact E2|]. split; [repeat split; congruence|exact S2].
Qed.

Lemma cost_roundings_dims p q c c' : same_dims p q -> kk c' = kk c -> kM c' = kM c -> kN c' = kN c -> kp c' = kp c ->
  cost_roundings p c' = cost_roundings q c.
Proof.
  intros [H1 [H2 [H3 [H4 _]]]] E1 E2 E3 E4. unfold cost_roundings, roundings. rewrite E1, E2, E3, E4, H1, H2, H3, H4. reflexivity.
Qed.
Lemma f_exact_ext u lev ps c c1 c' : k_same c c1 -> f_exact u lev ps c c' -> f_exact u lev ps c1 c'.
Proof.
  intros [M1 [M2 [M3 [M4 [M5 M6]]]]]. unfold f_exact, kQf, kEf, kff, kK, kR, kT, kH, kG, absC.
  cbn [set_data kk kfull kM kN kp kw]. rewrite M1, M2, M3, M4, M5, M6. auto.
Qed.

(** from the constructor through the updates *)
Lemma f_cost_run u F j c0 ps0 h w ps c1 : accurate u F -> fresh_ok c0 -> initializeCost j ps0 c0 = Ok c1 ->
  f_cost_history F ps0 (vsize (kp c0)) (h ++ ((w, ps) :: nil)) -> h = nil \/ ~ step_entry ps c0 ->
  exists c2, f_k_updates F (h ++ ((w, ps) :: nil)) c1 = Some c2 /\
    kk c2 = kk c0 /\ kM c2 = kM c0 /\ kN c2 = kN c0 /\ kp c2 = kp c0 /\ kw c2 = w /\
    k_shape ps c2 /\ k_entry ps c2 /\ f_exact u (cost_roundings ps c0) ps c2 c2.
Proof.
  intros Ac Fr I H A. destruct (k_init_ok j ps0 c0 c1 Fr I) as [I1 [I2 [I3 [I4 [I5 [S [En Z]]]]]]].
  apply Forall_app in H. destruct H as [H1 H2]. inversion H2 as [|? ? [Hw [C D]] _]; subst. cbn in Hw, C, D.
  assert (D' := same_dims_sym _ _ D).
  assert (G : exists c, f_k_updates F h c1 = Some c /\ k_same_data c1 c /\ k_shape ps0 c /\ (k_acc c = false \/ c = c1)).
  { destruct A as [-> |A].
    - exists c1. split; [reflexivity|]. split; [repeat split|]. split; [exact S|right; reflexivity].
    - assert (Na : k_acc c1 = false).
      { destruct (k_acc c1) eqn:Ka; [|reflexivity]. exfalso. apply A.
        unfold k_acc in Ka. unfold k_entry in En. destruct D as [D1 [D2 _]]. unfold step_entry. rewrite <- I1, <- I2, <- I3, D1, D2.
        destruct (kk c1); try discriminate Ka; rewrite En in Ka; rewrite negb_involutive in Ka.
        - apply Nat.eqb_eq. exact Ka.
        - apply andb_true_iff in Ka. rewrite !Nat.eqb_eq in Ka. exact Ka. }
      destruct (f_k_updates_keep u F ps0 h Ac c1 S En Na) as [c [E [Sm Sh]]]; [rewrite I4; exact H1|].
      exists c. split; [exact E|]. split; [exact Sm|]. split; [exact Sh|]. left.
      destruct Sm as [M1 [M2 _]]. unfold k_acc in *. rewrite M1, M2. exact Na. }
  destruct G as [c [E1 [[M1 [M2 [M3 [M4 M5]]]] [S1 Hz]]]].
  destruct (f_update_ok u F ps (set_w c w) Ac C) as [c2 [E2 [Sm2 [S2 X2]]]].
  - apply k_shape_w; [congruence|]. eapply k_shape_dims; eassumption.
  - eapply k_entry_dims; [exact D'|]. unfold k_entry in *. cbn. rewrite M1, M2, M3, M4. exact En.
  - eapply k_zero_dims; [exact D'|]. destruct Hz as [Hz| ->].
    + intro Hc. exfalso. unfold k_acc in *. cbn in Hc. rewrite Hz in Hc. discriminate Hc.
    + exact Z.
  - exists c2. rewrite f_k_updates_app, E1. cbn [obind]. split; [exact E2|].
    assert (Sm := Sm2). destruct Sm2 as [N1 [N2 [N3 [N4 [N5 N6]]]]]. cbn in N1, N2, N3, N4, N5, N6.
    split; [congruence|]. split; [congruence|]. split; [congruence|]. split; [congruence|]. split; [exact N6|].
    split; [exact S2|]. split.
    + unfold k_entry in *. rewrite N1, N2, N3, N4, M1, M2, M3, M4. destruct D as [D1 [D2 _]]. rewrite D1, D2. exact En.
    + apply (f_exact_ext u _ ps (set_w c w)); [exact Sm|].
      rewrite (cost_roundings_dims ps ps c0 (set_w c w)) in X2; [exact X2|repeat split| | | |]; cbn; congruence.
Qed.

(** ** The objective *)
Lemma half_abs : Qcabs half = half.
Proof. apply Qcabs_pos. unfold half. qc_lra. Qed.
Lemma objective_near u lev n Q Qx Qm c cx cm (U : nat -> Qc) : 0 <= u ->
  (forall i j, (i < n)%nat -> (j < n)%nat -> near u lev (Q i j) (Qx i j) (Qm i j)) ->
  (forall j, (j < n)%nat -> near u lev (c j) (cx j) (cm j)) ->
  near u lev (objective n Q c U) (objective n Qx cx U) (objective n Qm cm (vabs U)).
Proof.
  intros Hu NQ Nc. unfold objective. apply near_add.
  - eapply near_mono; [exact Hu|apply (near_mul u Hu 0 lev)|lia].
    + pose proof (near_abs u Hu 0 half) as G. rewrite half_abs in G. exact G.
    + apply near_sum; [exact Hu|]. intros i Hi.
      eapply near_mono; [exact Hu|apply (near_mul u Hu 0 lev); [apply near_abs; exact Hu|]|lia].
      unfold apply. apply near_sum; [exact Hu|]. intros j Hj.
      eapply near_mono; [exact Hu|apply (near_mul u Hu lev 0); [apply NQ; assumption|apply near_abs; exact Hu]|lia].
  - apply near_sum; [exact Hu|]. intros j Hj.
    eapply near_mono; [exact Hu|apply (near_mul u Hu lev 0); [apply Nc; assumption|apply near_abs; exact Hu]|lia].
Qed.

Lemma form_doc ps c x U : ready ps -> k_dims ps c -> k_entry ps c ->
  objective (fullUDim ps) (kQf ps c) (fun j => sum (xDim ps) (fun i => kEf ps c i j * x i) + kff ps c j) U
  = doc_cost ps c x U - doc_cost ps c x (fun _ => 0).
Proof.
  intros R D En.
  apply (k_value_x ps R (set_qp c (Mx (fullUDim ps) (fullUDim ps) (kQf ps c))
    (Vec (fullUDim ps) (fun j => sum (xDim ps) (fun i => kEf ps c i j * vget (x0 ps) i) + kff ps c j))
    (Mx (xDim ps) (fullUDim ps) (kEf ps c)) (Vec (fullUDim ps) (kff ps c))) x U D En).
  repeat split; intros; reflexivity.
Qed.
Lemma doc_pex ps c x U : doc_cost (pex ps) c x U = doc_cost ps c x U.
Proof. unfold doc_cost, traj_cost, target_cost, ctrl_cost, mixed_cost. destruct (kk c); reflexivity. Qed.
Lemma wsq_ext r w f g : (forall i, f i = g i) -> wsq r w f = wsq r w g.
Proof. intro H. unfold wsq. f_equal. apply sum_ext. intros i _. rewrite H. reflexivity. Qed.
Lemma doc_pab ps c x U : doc_cost (pab ps) (absC c) (vabs x) (vabs U) = doc_size ps c x U.
Proof.
  unfold doc_cost, doc_size. cbn [absC set_data kk kM kN kp kw]. destruct (kk c).
  - unfold traj_cost, traj_size. cbn [amx rows cols pab closed xDim fullXDim nrXStep avec].
    destruct (Nat.eqb (cols (kM c)) (xDim ps)); [apply sum_ext; intros k _|]; apply wsq_ext; intro i; cbn [vget at_];
      match goal with |- ?a - - ?b = _ => replace (a - - b) with (a + b) by ring end; reflexivity.
  - unfold target_cost, target_size. cbn [amx rows cols pab closed xDim fullXDim nrUStep avec]. apply wsq_ext; intro i; cbn [vget at_];
      match goal with |- ?a - - ?b = _ => replace (a - - b) with (a + b) by ring end; reflexivity.
  - unfold ctrl_cost, ctrl_size. cbn [amx rows cols pab closed uDim fullUDim nrUStep avec].
    destruct (Nat.eqb (cols (kN c)) (uDim ps)); [apply sum_ext; intros k _|]; apply wsq_ext; intro i; cbn [vget at_];
      match goal with |- ?a - - ?b = _ => replace (a - - b) with (a + b) by ring end; reflexivity.
  - unfold mixed_cost, mixed_size. cbn [amx rows cols pab closed xDim fullXDim uDim fullUDim nrUStep avec].
    destruct (Nat.eqb (cols (kM c)) (xDim ps) && Nat.eqb (cols (kN c)) (uDim ps)); [apply sum_ext; intros k _|]; apply wsq_ext; intro i;
      cbn [vget at_]; match goal with |- ?a - - ?b = _ => replace (a - - b) with (a + b) by ring end; reflexivity.
Qed.
Lemma doc_nonneg ps c x U : ready ps -> k_dims ps c -> k_entry ps c -> (forall r, (r < vsize (kp c))%nat -> 0 <= vget (kw c) r) ->
  0 <= doc_cost ps c x U.
Proof.
  intros R D En Hw. rewrite doc_cost_form by assumption. apply sum_nonneg. intros k _. unfold wsq.
  apply qc_mul_nonneg; [unfold half; qc_lra|]. apply sum_nonneg. intros r Hr. apply qc_mul_nonneg; [apply Hw; exact Hr|apply qc_sq_nonneg].
Qed.
Lemma near_up u k r x m m' : 0 <= u -> near u k r x m -> m <= m' -> near u k r x m'.
Proof.
  intros Hu [H1 H2] L. split; [eapply Qcle_trans; eassumption|]. eapply Qcle_trans; [exact H2|].
  apply qc_mul_le_l; [exact L|apply growth_nonneg; exact Hu].
Qed.

(** the quadratic form with the linear term E'x + f *)
Lemma f_value_x u lev ps c c' x U : 0 <= u -> ps_wf ps -> vsize (x0 ps) = xDim ps -> k_dims ps c -> k_entry ps c ->
  f_exact u lev ps c c' ->
  near u lev (objective (fullUDim ps) (at_ (kQ c')) (fun j => sum (xDim ps) (fun i => at_ (kE c') i j * x i) + vget (kf c') j) U)
    (doc_cost ps c x U - doc_cost ps c x (fun _ => 0)) (doc_size ps c x U).
Proof.
  intros Hu W X0 D En [NQ [NE [NF _]]].
  assert (Rx : ready (pex ps)) by (apply closed_ready; assumption).
  assert (Ra : ready (pab ps)) by (apply closed_ready; [exact W|exact X0]).
  assert (Da : k_dims (pab ps) (absC c)) by (unfold k_dims in *; cbn; destruct (kk c); exact D).
  assert (Ea : k_entry (pab ps) (absC c)) by (unfold k_entry in *; cbn; destruct (kk c); exact En).
  eapply near_up; [exact Hu|eapply near_eq|].
  - apply (objective_near u lev (fullUDim ps) _ (kQf (pex ps) c) (kQf (pab ps) (absC c)) _
      (fun j => sum (xDim ps) (fun i => kEf (pex ps) c i j * x i) + kff (pex ps) c j)
      (fun j => sum (xDim ps) (fun i => kEf (pab ps) (absC c) i j * vabs x i) + kff (pab ps) (absC c) j) U Hu NQ).
    intros j Hj. apply near_add; [|apply NF; exact Hj]. apply near_sum; [exact Hu|]. intros i Hi.
    eapply near_mono; [exact Hu|apply (near_mul u Hu lev 0); [apply NE; assumption|apply near_abs; exact Hu]|lia].
  - rewrite <- !(doc_pex ps). apply (form_doc (pex ps) c x U Rx D En).
  - apply (form_doc (pab ps) (absC c) (vabs x) (vabs U) Ra Da Ea).
  - rewrite <- doc_pab.
    assert (G : 0 <= doc_cost (pab ps) (absC c) (vabs x) (fun _ => 0)).
    { apply doc_nonneg; try assumption. intros r _. apply Qcabs_nonneg. }
    revert G. generalize (doc_cost (pab ps) (absC c) (vabs x) (fun _ => 0)) (doc_cost (pab ps) (absC c) (vabs x) (vabs U)). qc_lra.
Qed.
(** the quadratic form with the linear term c *)
Lemma f_value u lev ps c c' U : 0 <= u -> ps_wf ps -> vsize (x0 ps) = xDim ps -> k_dims ps c -> k_entry ps c ->
  f_exact u lev ps c c' ->
  near u lev (objective (fullUDim ps) (at_ (kQ c')) (vget (kc c')) U)
    (doc_cost ps c (vget (x0 ps)) U - doc_cost ps c (vget (x0 ps)) (fun _ => 0)) (doc_size ps c (vget (x0 ps)) U).
Proof.
  intros Hu W X0 D En [NQ [_ [_ NC]]].
  assert (Rx : ready (pex ps)) by (apply closed_ready; assumption).
  assert (Ra : ready (pab ps)) by (apply closed_ready; [exact W|exact X0]).
  assert (Da : k_dims (pab ps) (absC c)) by (unfold k_dims in *; cbn; destruct (kk c); exact D).
  assert (Ea : k_entry (pab ps) (absC c)) by (unfold k_entry in *; cbn; destruct (kk c); exact En).
  eapply near_up; [exact Hu|eapply near_eq|].
  - apply (objective_near u lev (fullUDim ps) _ (kQf (pex ps) c) (kQf (pab ps) (absC c)) _
      (fun j => sum (xDim ps) (fun i => kEf (pex ps) c i j * vget (x0 ps) i) + kff (pex ps) c j)
      (fun j => sum (xDim ps) (fun i => kEf (pab ps) (absC c) i j * vabs (vget (x0 ps)) i) + kff (pab ps) (absC c) j) U Hu NQ).
    intros j Hj. exact (NC j Hj).
  - rewrite <- !(doc_pex ps). apply (form_doc (pex ps) c (vget (x0 ps)) U Rx D En).
  - apply (form_doc (pab ps) (absC c) (vabs (vget (x0 ps))) (vabs U) Ra Da Ea).
  - rewrite <- doc_pab.
    assert (G : 0 <= doc_cost (pab ps) (absC c) (vabs (vget (x0 ps))) (fun _ => 0)).
    { apply doc_nonneg; try assumption. intros r _. apply Qcabs_nonneg. }
    revert G. generalize (doc_cost (pab ps) (absC c) (vabs (vget (x0 ps))) (fun _ => 0))
      (doc_cost (pab ps) (absC c) (vabs (vget (x0 ps))) (vabs U)). qc_lra.
Qed.

(** ** The sum of the costs *)
Definition fsum {A} (l : list A) (f : A -> Qc) : Qc := fold_right (fun a s => f a + s) 0 l.
Fixpoint f_go (F : arith) (i : nat) (l : list cost) (s : mx * vec Qc) : option (mx * vec Qc) :=
  match l with nil => Some s | (c :: t)%list => s' <- f_add_cost F i c s ;; f_go F (S i) t s' end.
Lemma f_objective_go F reg n l : f_objective F reg n l = f_go F 0 l (mscal reg (mident n n), vconst n 0).
Proof.
  unfold f_objective. generalize (mscal reg (mident n n), vconst n 0%Qc) as s. generalize 0%nat as i.
  induction l as [|c l IH]; intros i s; [reflexivity|]. cbn [f_go]. destruct (f_add_cost F i c s) as [s'|]; cbn [obind]; [apply IH|reflexivity].
Qed.
(** Q, c and the same with their entries near [qx], [qm], [cx], [cm] *)
Definition s_near (u : Qc) (lev n : nat) (s : mx * vec Qc) (qx qm : nat -> nat -> Qc) (cx cm : nat -> Qc) : Prop :=
  rows (fst s) = n /\ cols (fst s) = n /\ vsize (snd s) = n /\
  (forall i j, (i < n)%nat -> (j < n)%nat -> near u lev (at_ (fst s) i j) (qx i j) (qm i j)) /\
  (forall j, (j < n)%nat -> near u lev (vget (snd s) j) (cx j) (cm j)).
Lemma f_go_near u F n lev (l : list cost) (qx qm : cost -> nat -> nat -> Qc) (cx cm : cost -> nat -> Qc) : accurate u F ->
  Forall (fun c => s_near u lev n (kQ c, kc c) (qx c) (qm c) (cx c) (cm c)) l ->
  forall i k s ax am bx bm, (lev <= k)%nat -> s_near u k n s ax am bx bm ->
  exists s', f_go F i l s = Some s' /\ s_near u (k + 2 * length l) n s'
    (fun a b => ax a b + fsum l (fun c => qx c a b)) (fun a b => am a b + fsum l (fun c => qm c a b))
    (fun a => bx a + fsum l (fun c => cx c a)) (fun a => bm a + fsum l (fun c => cm c a)).
Proof.
  intros Ac H. pose proof (proj1 Ac) as Hu. induction H as [|c l [C1 [C2 [C3 [C4 C5]]]] _ IH]; intros i k s ax am bx bm Lk S.
  - exists s. split; [reflexivity|]. destruct S as [S1 [S2 [S3 [S4 S5]]]]. split; [exact S1|]. split; [exact S2|]. split; [exact S3|].
    cbn [fsum fold_right length]. split.
    + intros a b Ha Hb. eapply near_eq; [eapply near_mono; [exact Hu|exact (S4 a b Ha Hb)|lia]|ring|ring].
    + intros a Ha. eapply near_eq; [eapply near_mono; [exact Hu|exact (S5 a Ha)|lia]|ring|ring].
  - destruct s as [Q v]. destruct S as [S1 [S2 [S3 [S4 S5]]]]. cbn [fst snd] in *.
    assert (E : exists s1, f_add_cost F i c (Q, v) = Some s1 /\
      s_near u (k + 2) n s1 (fun a b => ax a b + qx c a b) (fun a b => am a b + qm c a b)
        (fun a => bx a + cx c a) (fun a => bm a + cm c a)).
    { unfold f_add_cost. rewrite S1, S2, S3, C1, C2, C3, !Nat.eqb_refl. cbn [andb obind].
      eexists. split; [reflexivity|]. split; [reflexivity|]. split; [reflexivity|]. split; [reflexivity|]. cbn [fst snd at_ vget]. split.
      - intros a b Ha Hb. apply (two_near u F Ac); [exact (S4 a b Ha Hb)|].
        eapply near_mono; [exact Hu|exact (C4 a b Ha Hb)|exact Lk].
      - intros a Ha. apply (two_near u F Ac); [exact (S5 a Ha)|]. eapply near_mono; [exact Hu|exact (C5 a Ha)|exact Lk]. }
    destruct E as [s1 [E1 N1]]. cbn [f_go]. rewrite E1. cbn [obind].
    destruct (IH (Datatypes.S i) (k + 2)%nat s1 _ _ _ _ ltac:(lia) N1) as [s' [E2 [T1 [T2 [T3 [T4 T5]]]]]].
    exists s'. split; [exact E2|]. split; [exact T1|]. split; [exact T2|]. split; [exact T3|].
    replace (k + 2 * length (c :: l))%nat with (k + 2 + 2 * length l)%nat by (cbn [length]; lia).
    unfold fsum in *. cbn [fold_right]. split.
    + intros a b Ha Hb. eapply near_eq; [exact (T4 a b Ha Hb)|cbn beta; ring|cbn beta; ring].
    + intros a Ha. eapply near_eq; [exact (T5 a Ha)|cbn beta; ring|cbn beta; ring].
Qed.
Lemma objective_add n Q1 Q2 c1 c2 U :
  objective n (fun i j => Q1 i j + Q2 i j) (fun j => c1 j + c2 j) U = objective n Q1 c1 U + objective n Q2 c2 U.
Proof.
  unfold objective, apply.
  assert (E : sum n (fun i => U i * sum n (fun j => (Q1 i j + Q2 i j) * U j))
    = sum n (fun i => U i * sum n (fun j => Q1 i j * U j)) + sum n (fun i => U i * sum n (fun j => Q2 i j * U j))).
  { rewrite <- sum_add. apply sum_ext. intros i _. rewrite <- (Qcmult_plus_distr_r (U i)), <- sum_add. f_equal. apply sum_ext. intros j _. ring. }
  rewrite E. assert (E2 : sum n (fun j => (c1 j + c2 j) * U j) = sum n (fun j => c1 j * U j) + sum n (fun j => c2 j * U j)).
  { rewrite <- sum_add. apply sum_ext. intros j _. ring. }
  rewrite E2. ring.
Qed.
Lemma objective_zero n U : objective n (fun _ _ => 0) (fun _ => 0) U = 0.
Proof.
  unfold objective, apply.
  assert (E : sum n (fun i => U i * sum n (fun j => 0 * U j)) = 0).
  { transitivity (sum n (fun _ => 0)); [|apply sum_zero; reflexivity]. apply sum_ext. intros i _.
    rewrite (sum_zero n) by (intros j _; ring). ring. }
  rewrite E, (sum_zero n) by (intros j _; ring). ring.
Qed.
Lemma objective_fsum {A} n (l : list A) (Q : A -> nat -> nat -> Qc) (c : A -> nat -> Qc) U :
  objective n (fun i j => fsum l (fun a => Q a i j)) (fun j => fsum l (fun a => c a j)) U = fsum l (fun a => objective n (Q a) (c a) U).
Proof.
  induction l as [|a l IH]; [apply objective_zero|]. unfold fsum in *. cbn [fold_right]. rewrite objective_add, IH. reflexivity.
Qed.
Lemma objective_ident n q U : objective n (fun i j => q * (if Nat.eqb i j then 1 else 0)) (fun _ => 0) U
  = half * (q * sum n (fun i => U i * U i)).
Proof.
  unfold objective, apply. rewrite (sum_zero n (fun i => 0 * U i)) by (intros j _; ring).
  assert (E : sum n (fun i => U i * sum n (fun j => q * (if Nat.eqb i j then 1 else 0) * U j)) = q * sum n (fun i => U i * U i)).
  { rewrite <- sum_scal_l. apply sum_ext. intros i Hi.
    assert (E : sum n (fun j => q * (if Nat.eqb i j then 1 else 0) * U j) = q * U i).
    { transitivity (sum n (fun j => if Nat.eqb j i then q * U j else 0)).
      - apply sum_ext. intros j _. rewrite (Nat.eqb_sym i j). destruct (Nat.eqb j i); ring.
      - apply (sum_delta n i (fun j => q * U j)). exact Hi. }
    rewrite E. ring. }
  rewrite E. ring.
Qed.

(** one cost of the list *)
Lemma item_ok u F ps c0 w c2 : accurate u F -> computed_cost F ps c0 w c2 ->
  ps_wf ps /\ vsize (x0 ps) = xDim ps /\ kk c2 = kk c0 /\ kM c2 = kM c0 /\ kN c2 = kN c0 /\ kp c2 = kp c0 /\ kw c2 = w /\
  k_shape ps c2 /\ k_entry ps c2 /\ f_exact u (cost_roundings ps c0) ps c2 c2.
Proof.
  intros Ac [Fr [j [ps0 [h [c1 [I [H [A E]]]]]]]].
  assert (Fo : fresh_ok c0) by (destruct Fr; split; reflexivity).
  destruct (f_cost_run u F j c0 ps0 h w ps c1 Ac Fo I H A) as [c2' [E' G]]. rewrite E in E'. injection E' as <-.
  apply Forall_app in H. destruct H as [_ H]. inversion H as [|? ? [_ [C _]] _]; subst. cbn in C.
  destruct (computed_inv F ps C) as [W X]. split; [exact W|]. split; [exact X|exact G].
Qed.
Lemma doc_cost_w ps c0 w c2 x U : kk c2 = kk c0 -> kM c2 = kM c0 -> kN c2 = kN c0 -> kp c2 = kp c0 -> kw c2 = w ->
  doc_cost ps c2 x U = doc_cost ps (set_w c0 w) x U /\ doc_size ps c2 x U = doc_size ps (set_w c0 w) x U.
Proof.
  intros E1 E2 E3 E4 E5. unfold doc_cost, doc_size. cbn [set_w set_data kk kM kN kp kw]. rewrite E1, E2, E3, E4, E5. split; reflexivity.
Qed.
(** the exact linear and quadratic terms, and those with absolute values *)
Definition xc (ps : psys) (c : cost) (j : nat) : Qc := sum (xDim ps) (fun i => kEf (pex ps) c i j * vget (x0 ps) i) + kff (pex ps) c j.
Definition mc (ps : psys) (c : cost) (j : nat) : Qc :=
  sum (xDim ps) (fun i => kEf (pab ps) (absC c) i j * Qcabs (vget (x0 ps) i)) + kff (pab ps) (absC c) j.
Lemma item_values u F ps c0 w c2 U : accurate u F -> computed_cost F ps c0 w c2 ->
  objective (fullUDim ps) (kQf (pex ps) c2) (xc ps c2) U
    = item_cost ps (vget (x0 ps)) U (c0, w, c2) - item_cost ps (vget (x0 ps)) (fun _ => 0) (c0, w, c2) /\
  objective (fullUDim ps) (kQf (pab ps) (absC c2)) (mc ps c2) (vabs U) <= item_size ps (vget (x0 ps)) U (c0, w, c2).
Proof.
  intros Ac C. destruct (item_ok u F ps c0 w c2 Ac C) as [W [X0 [E1 [E2 [E3 [E4 [E5 [Sh [En _]]]]]]]]].
  destruct Sh as [_ [_ [D _]]].
  assert (Rx : ready (pex ps)) by (apply closed_ready; assumption).
  assert (Ra : ready (pab ps)) by (apply closed_ready; [exact W|exact X0]).
  assert (Da : k_dims (pab ps) (absC c2)) by (unfold k_dims in *; cbn; destruct (kk c2); exact D).
  assert (Ea : k_entry (pab ps) (absC c2)) by (unfold k_entry in *; cbn; destruct (kk c2); exact En).
  unfold item_cost, item_size. split.
  - rewrite <- (proj1 (doc_cost_w ps c0 w c2 (vget (x0 ps)) U E1 E2 E3 E4 E5)),
      <- (proj1 (doc_cost_w ps c0 w c2 (vget (x0 ps)) (fun _ => 0) E1 E2 E3 E4 E5)), <- !(doc_pex ps).
    exact (form_doc (pex ps) c2 (vget (x0 ps)) U Rx D En).
  - rewrite <- (proj2 (doc_cost_w ps c0 w c2 (vget (x0 ps)) U E1 E2 E3 E4 E5)), <- doc_pab.
    pose proof (form_doc (pab ps) (absC c2) (vabs (vget (x0 ps))) (vabs U) Ra Da Ea) as G0.
    change (objective (fullUDim ps) (kQf (pab ps) (absC c2)) (mc ps c2) (vabs U)
      = doc_cost (pab ps) (absC c2) (vabs (vget (x0 ps))) (vabs U) - doc_cost (pab ps) (absC c2) (vabs (vget (x0 ps))) (fun _ => 0)) in G0.
    rewrite G0.
    assert (G : 0 <= doc_cost (pab ps) (absC c2) (vabs (vget (x0 ps))) (fun _ => 0)).
    { apply doc_nonneg; try assumption. intros r _. apply Qcabs_nonneg. }
    revert G. generalize (doc_cost (pab ps) (absC c2) (vabs (vget (x0 ps))) (fun _ => 0))
      (doc_cost (pab ps) (absC c2) (vabs (vget (x0 ps))) (vabs U)). qc_lra.
Qed.
(** the lists *)
Lemma items_values u F ps U (l : list item) : accurate u F -> items_computed F ps l ->
  fsum (map snd l) (fun c => objective (fullUDim ps) (kQf (pex ps) c) (xc ps c) U)
    = items_cost ps (vget (x0 ps)) U l - items_cost ps (vget (x0 ps)) (fun _ => 0) l /\
  fsum (map snd l) (fun c => objective (fullUDim ps) (kQf (pab ps) (absC c)) (mc ps c) (vabs U)) <= items_size ps (vget (x0 ps)) U l.
Proof.
  intros Ac H. induction H as [|[[c0 w] c2] l C _ [IH1 IH2]].
  - cbn. split; [ring|apply Qcle_refl].
  - destruct (item_values u F ps c0 w c2 U Ac C) as [V1 V2].
    unfold fsum, items_cost, items_size in *. cbn [map snd fold_right]. rewrite IH1, V1. split; [ring|].
    apply Qcplus_le_compat; [exact V2|exact IH2].
Qed.
Lemma items_near u F ps (l : list item) : accurate u F -> items_computed F ps l ->
  let lev := fold_right (fun a m => Nat.max (let '(c0, _, _) := a in cost_roundings ps c0) m) 1%nat l in
  Forall (fun c => s_near u lev (fullUDim ps) (kQ c, kc c) (kQf (pex ps) c) (kQf (pab ps) (absC c)) (xc ps c) (mc ps c)) (map snd l) /\
  (1 <= lev)%nat.
Proof.
  intros Ac H lev. pose proof (proj1 Ac) as Hu.
  assert (G : forall k, (lev <= k)%nat ->
    Forall (fun c => s_near u k (fullUDim ps) (kQ c, kc c) (kQf (pex ps) c) (kQf (pab ps) (absC c)) (xc ps c) (mc ps c)) (map snd l)
    /\ (1 <= lev)%nat).
  { unfold lev. induction H as [|[[c0 w] c2] l C _ IH]; intros k Hk.
    - split; [apply Forall_nil|cbn; lia].
    - cbn [map snd fold_right] in *. destruct (IH k ltac:(lia)) as [IH1 IH2]. split; [|lia]. apply Forall_cons; [|exact IH1].
      destruct (item_ok u F ps c0 w c2 Ac C) as [W [X0 [_ [_ [_ [_ [_ [Sh [_ [X1 [_ [_ X4]]]]]]]]]]]].
      destruct Sh as [[Z1 [Z2 [Z3 _]]] _].
      split; [exact Z1|]. split; [exact Z2|]. split; [exact Z3|]. split.
      + intros i j Hi Hj. eapply near_mono; [exact Hu|exact (X1 i j Hi Hj)|lia].
      + intros j Hj. eapply near_mono; [exact Hu|exact (X4 j Hj)|lia]. }
  apply (G lev). lia.
Qed.
Lemma q1em6_nonneg : 0 <= q1em6.
Proof. unfold Qcle. vm_compute. discriminate. Qed.
Lemma f_objective_near u F reg ps (l : list item) : accurate u F -> within u q1em6 reg -> items_computed F ps l ->
  exists Q c, f_objective F reg (fullUDim ps) (map snd l) = Some (Q, c) /\
    rows Q = fullUDim ps /\ cols Q = fullUDim ps /\ vsize c = fullUDim ps /\
    forall U, near u (items_roundings ps l) (objective (fullUDim ps) (at_ Q) (vget c) U)
      (regularization (fullUDim ps) U + (items_cost ps (vget (x0 ps)) U l - items_cost ps (vget (x0 ps)) (fun _ => 0) l))
      (regularization (fullUDim ps) U + items_size ps (vget (x0 ps)) U l).
Proof.
  intros Ac Wr H. pose proof (proj1 Ac) as Hu. destruct (items_near u F ps l Ac H) as [N L].
  rewrite f_objective_go. unfold items_roundings.
  set (lev := fold_right (fun a m => Nat.max (let '(c0, _, _) := a in cost_roundings ps c0) m) 1%nat l) in *.
  set (FU := fullUDim ps) in *.
  assert (S0 : s_near u lev FU (mscal reg (mident FU FU), vconst FU 0)
     (fun i j => q1em6 * (if Nat.eqb i j then 1 else 0)) (fun i j => q1em6 * (if Nat.eqb i j then 1 else 0)) (fun _ => 0) (fun _ => 0)).
  { split; [reflexivity|]. split; [reflexivity|]. split; [reflexivity|]. cbn [fst snd at_ vget mscal mident vconst]. split.
    - intros i j _ _. destruct (Nat.eqb i j).
      + rewrite !Qcmult_1_r. eapply near_mono; [exact Hu|apply (near_round u Hu 0 q1em6)|exact L].
        * apply near_refl; [exact Hu|]. rewrite Qcabs_pos by exact q1em6_nonneg. apply Qcle_refl.
        * exact Wr.
      + rewrite !Qcmult_0_r. apply near_0. exact Hu.
    - intros j _. apply near_0. exact Hu. }
  destruct (f_go_near u F FU lev (map snd l) _ _ _ _ Ac N 0 lev _ _ _ _ _ (Nat.le_refl _) S0) as [[Q c] [E [T1 [T2 [T3 [T4 T5]]]]]].
  exists Q, c. split; [exact E|]. split; [exact T1|]. split; [exact T2|]. split; [exact T3|]. intro U.
  rewrite map_length in T4, T5. destruct (items_values u F ps U l Ac H) as [V1 V2]. fold FU in V1, V2.
  eapply near_up; [exact Hu|eapply near_eq|].
  - apply (objective_near u (lev + 2 * length l) FU _ _ _ _ _ _ U Hu T4 T5).
  - rewrite objective_add, objective_ident, objective_fsum, V1. reflexivity.
  - rewrite objective_add, objective_ident, objective_fsum. reflexivity.
  - unfold regularization. apply Qcplus_le_compat; [|exact V2].
    assert (Es : sum FU (fun i => vabs U i * vabs U i) = sum FU (fun i => U i * U i)).
    { apply sum_ext. intros i _. unfold vabs. rewrite <- Qcabs_Qcmult. apply Qcabs_pos. apply qc_sq_nonneg. }
    rewrite Es. apply Qcle_refl.
Qed.
