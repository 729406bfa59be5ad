(** CostMeaning.v -- from initializeCost through updates to the documented value. *)
From Verif Require Import Base Eigen Spec Preview SpecApi AutoSpan Constraints SpecConstraints Costs SpecCosts
  PreviewProofs ConstraintProofs ConstraintMeaning CostProofs.

(** the documented value of a cost object *)
Definition doc_cost (ps : psys) (c : cost) (x U : nat -> Qc) : Qc :=
  match kk c with
  | TrajectoryCost => traj_cost ps (kM c) (kp c) (kw c) x U
  | TargetCost => target_cost ps (kM c) (kp c) (kw c) x U
  | ControlCost => ctrl_cost ps (kN c) (kp c) (kw c) U
  | MixedCost => mixed_cost ps (kM c) (kN c) (kp c) (kw c) x U
  end.

(** fullSizeEntry_ tells whether the entry is per step *)
Definition k_entry (ps : psys) (c : cost) : Prop :=
  match kk c with
  | TrajectoryCost => kfull c = negb (Nat.eqb (cols (kM c)) (xDim ps))
  | TargetCost => True
  | ControlCost => kfull c = negb (Nat.eqb (cols (kN c)) (uDim ps))
  | MixedCost => kfull c = negb (Nat.eqb (cols (kM c)) (xDim ps) && Nat.eqb (cols (kN c)) (uDim ps))
  end.

(** Q, E, f, c are exactly those of the object's data *)
Definition k_exact (ps : psys) (c : cost) : Prop :=
  (forall i j, i < fullUDim ps -> j < fullUDim ps -> at_ (kQ c) i j = kQf ps c i j) /\
  (forall i j, i < xDim ps -> j < fullUDim ps -> at_ (kE c) i j = kEf ps c i j) /\
  (forall j, j < fullUDim ps -> vget (kf c) j = kff ps c j) /\
  (forall j, j < fullUDim ps ->
     vget (kc c) j = (sum (xDim ps) (fun i => at_ (kE c) i j * vget (x0 ps) i) + vget (kf c) j)%Qc).

Lemma objective_ext n Q Q' c c' U :
  (forall i j, i < n -> j < n -> Q i j = Q' i j) -> (forall j, j < n -> c j = c' j) ->
  objective n Q c U = objective n Q' c' U.
Proof.
  intros HQ Hc. unfold objective. f_equal.
  - f_equal. apply sum_ext; intros i Hi. f_equal. unfold apply. apply sum_ext; intros j Hj. rewrite HQ by assumption. reflexivity.
  - apply sum_ext; intros j Hj. rewrite Hc by assumption. reflexivity.
Qed.
Lemma objective_ext_U n Q c U V : (forall i, i < n -> U i = V i) -> objective n Q c U = objective n Q c V.
Proof.
  intros H. unfold objective, apply. f_equal.
  - f_equal. apply sum_ext; intros i Hi. rewrite H by exact Hi. f_equal. apply sum_ext; intros j Hj. rewrite H by exact Hj. reflexivity.
  - apply sum_ext; intros i Hi. rewrite H by exact Hi. reflexivity.
Qed.
Lemma objective_0 n Q c : objective n Q c (fun _ => 0%Qc) = 0%Qc.
Proof.
  unfold objective. rewrite (sum_zero n (fun i => 0 * _)%Qc) by (intros; ring).
  rewrite (sum_zero n (fun i => c i * 0)%Qc) by (intros; ring). ring.
Qed.

Lemma doc_cost_form ps (R : ready ps) c x U : k_dims ps c -> k_entry ps c ->
  doc_cost ps c x U = sum (kK ps c) (fun k => wsq (kR c) (vget (kw c)) (k_res ps c x U k)).
Proof.
  intros D E. rewrite (sum_ext (kK ps c) _ (fun k => wsq (kR c) (vget (kw c)) (fun i =>
    match kk c with
    | TrajectoryCost => if kfull c then (apply (fullXDim ps) (at_ (kM c)) (stacked_state ps x U) i - vget (kp c) i)%Qc
        else (apply (xDim ps) (at_ (kM c)) (state_of ps x U k) i - vget (kp c) i)%Qc
    | TargetCost => (apply (xDim ps) (at_ (kM c)) (state_of ps x U (nrUStep ps)) i - vget (kp c) i)%Qc
    | ControlCost => if kfull c then (apply (fullUDim ps) (at_ (kN c)) U i - vget (kp c) i)%Qc
        else (apply (uDim ps) (at_ (kN c)) (control_at (uDim ps) U k) i - vget (kp c) i)%Qc
    | MixedCost => if kfull c
        then (apply (fullXDim ps) (at_ (kM c)) (stacked_state ps x U) i + apply (fullUDim ps) (at_ (kN c)) U i - vget (kp c) i)%Qc
        else (apply (xDim ps) (at_ (kM c)) (state_of ps x U k) i + apply (uDim ps) (at_ (kN c)) (control_at (uDim ps) U k) i
              - vget (kp c) i)%Qc
    end))).
  2:{ intros k Hk. unfold wsq. f_equal. apply sum_ext; intros i _. rewrite (k_res_ok ps R) by exact Hk. reflexivity. }
  unfold doc_cost, k_entry, k_dims, kK, kR in *. destruct (kk c).
  - unfold traj_cost. destruct D as [-> _]. destruct (Nat.eqb (cols (kM c)) (xDim ps)); rewrite E; cbn [negb sum]; [reflexivity|ring].
  - unfold target_cost. destruct D as [-> _]. cbn [sum]. ring.
  - unfold ctrl_cost. destruct D as [-> _]. destruct (Nat.eqb (cols (kN c)) (uDim ps)); rewrite E; cbn [negb sum]; [reflexivity|ring].
  - unfold mixed_cost. destruct D as [-> _]. destruct (Nat.eqb (cols (kM c)) (xDim ps) && Nat.eqb (cols (kN c)) (uDim ps));
      rewrite E; cbn [negb sum]; [reflexivity|ring].
Qed.

(** the objective with the linear term for the initial state [x] *)
Lemma k_value_x ps (R : ready ps) c x U : k_dims ps c -> k_entry ps c -> k_exact ps c ->
  objective (fullUDim ps) (at_ (kQ c)) (fun j => sum (xDim ps) (fun i => at_ (kE c) i j * x i) + vget (kf c) j)%Qc U
  = (doc_cost ps c x U - doc_cost ps c x (fun _ => 0))%Qc.
Proof.
  intros D En [XQ [XE [XF XC]]]. rewrite !doc_cost_form by assumption.
  assert (F : forall V, (objective (fullUDim ps) (at_ (kQ c)) (fun j => sum (xDim ps) (fun i => at_ (kE c) i j * x i) + vget (kf c) j)%Qc V
     + sum (kK ps c) (fun k => wsq (kR c) (vget (kw c)) (form_h (xDim ps) (kH ps c) (kG ps c) x k)))%Qc
    = sum (kK ps c) (fun k => wsq (kR c) (vget (kw c)) (k_res ps c x V k))).
  { intro V. unfold k_res. rewrite <- form_value. f_equal. apply objective_ext; [exact XQ|].
    intros j Hj. unfold formc. rewrite XF by exact Hj. f_equal. apply sum_ext; intros i Hi. rewrite XE by assumption. reflexivity. }
  rewrite <- (F U), <- (F (fun _ => 0%Qc)). rewrite objective_0. ring.
Qed.

Lemma k_value ps (R : ready ps) c U : k_dims ps c -> k_entry ps c -> k_exact ps c ->
  objective (fullUDim ps) (at_ (kQ c)) (vget (kc c)) U
  = (doc_cost ps c (vget (x0 ps)) U - doc_cost ps c (vget (x0 ps)) (fun _ => 0))%Qc.
Proof.
  intros D En X. rewrite <- k_value_x by assumption. apply objective_ext; [reflexivity|]. apply X.
Qed.

(** ** initializeCost *)

Definition fresh_ok (c : cost) : Prop := kfull c = false /\ vsize (kw c) = vsize (kp c).

(** the results are zero before the first update of an accumulating object *)
Definition k_zero (ps : psys) (c : cost) : Prop :=
  k_acc c = true ->
  (forall i j, i < fullUDim ps -> j < fullUDim ps -> at_ (kQ c) i j = 0%Qc) /\
  (forall i j, i < xDim ps -> j < fullUDim ps -> at_ (kE c) i j = 0%Qc) /\
  (forall j, j < fullUDim ps -> vget (kf c) j = 0%Qc) /\ (forall j, j < fullUDim ps -> vget (kc c) j = 0%Qc).

Lemma k_init_ok j ps c c' : fresh_ok c -> initializeCost j ps c = Ok c' ->
  kk c' = kk c /\ kM c' = kM c /\ kN c' = kN c /\ kp c' = kp c /\ kw c' = kw c /\
  k_shape ps c' /\ k_entry ps c' /\ k_zero ps c'.
Proof.
  intros [HF Hw]. unfold initializeCost. destruct (kk c) eqn:HK.
  - unfold trajC_init. cbn [k_resize set_qp kM kp kQ kc kE kf].
    destruct (Nat.eqb_spec (rows (kM c)) (vsize (kp c))) as [Er|]; [|discriminate]. cbn [negb].
    destruct (Nat.eqb (cols (kM c)) (xDim ps)) eqn:Ec; [|destruct (Nat.eqb (cols (kM c)) (fullXDim ps)) eqn:Ef; [|discriminate]];
      intro H; injection H as <-; (repeat (split; [exact HK || reflexivity|]));
      unfold k_shape, k_sized, k_dims, k_entry, k_zero, k_acc; cbn; rewrite HK, ?HF; cbn;
      rewrite ?mresize_rows, ?mresize_cols, ?vresize_size.
    + apply Nat.eqb_eq in Ec. rewrite Ec, Nat.eqb_refl. repeat split; auto; discriminate.
    + apply Nat.eqb_eq in Ef. rewrite Ec. repeat split; auto; discriminate.
  - unfold targetC_init. cbn [k_resize set_qp kM kp kQ kc kE kf].
    destruct (Nat.eqb_spec (rows (kM c)) (vsize (kp c))) as [Er|]; [|discriminate]. cbn [negb].
    destruct (Nat.eqb_spec (cols (kM c)) (xDim ps)) as [Ec|]; [|discriminate]. cbn [negb].
    intro H; injection H as <-; (repeat (split; [exact HK || reflexivity|]));
      unfold k_shape, k_sized, k_dims, k_entry, k_zero, k_acc; cbn; rewrite HK; cbn;
      rewrite ?mresize_rows, ?mresize_cols, ?vresize_size. repeat split; auto; discriminate.
  - unfold ctrlC_init. cbn [k_resize set_qp kN kp kQ kc kE kf].
    destruct (Nat.eqb_spec (rows (kN c)) (vsize (kp c))) as [Er|]; [|discriminate]. cbn [negb].
    destruct (Nat.eqb (cols (kN c)) (uDim ps)) eqn:Ec; [|destruct (Nat.eqb (cols (kN c)) (fullUDim ps)) eqn:Ef; [|discriminate]];
      intro H; injection H as <-; (repeat (split; [exact HK || reflexivity|]));
      unfold k_shape, k_sized, k_dims, k_entry, k_zero, k_acc; cbn; rewrite HK, ?HF; cbn;
      rewrite ?mresize_rows, ?mresize_cols, ?vresize_size.
    + apply Nat.eqb_eq in Ec. rewrite Ec, Nat.eqb_refl. repeat split; auto; discriminate.
    + apply Nat.eqb_eq in Ef. rewrite Ec. repeat split; auto; discriminate.
  - unfold mixedC_init. cbn [k_resize set_qp kM kN kp kQ kc kE kf].
    destruct (Nat.eqb_spec (rows (kM c)) (vsize (kp c))) as [Er|]; [|discriminate]. cbn [negb].
    destruct (Nat.eqb_spec (rows (kN c)) (vsize (kp c))) as [Er2|]; [|discriminate]. cbn [negb].
    destruct (Nat.eqb (cols (kM c)) (xDim ps) && Nat.eqb (cols (kN c)) (uDim ps)) eqn:Ec;
      [|destruct (Nat.eqb (cols (kM c)) (fullXDim ps) && Nat.eqb (cols (kN c)) (fullUDim ps)) eqn:Ef; [|discriminate]];
      intro H; injection H as <-; (repeat (split; [exact HK || reflexivity|]));
      unfold k_shape, k_sized, k_dims, k_entry, k_zero, k_acc; cbn; rewrite HK, ?HF; cbn;
      rewrite ?mresize_rows, ?mresize_cols, ?vresize_size.
    + rewrite Ec. apply andb_true_iff in Ec. destruct Ec as [E1 E2]. apply Nat.eqb_eq in E1, E2. repeat split; auto; discriminate.
    + rewrite Ec. apply andb_true_iff in Ef. destruct Ef as [E1 E2]. apply Nat.eqb_eq in E1, E2. repeat split; auto; discriminate.
Qed.

(** ** Several updates *)

Lemma k_shape_dims p q c : same_dims p q -> k_shape p c -> k_shape q c.
Proof.
  intros [H1 [H2 [H3 [H4 [H5 H6]]]]]. unfold k_shape, k_sized, k_dims. rewrite H1, H2, H3, H5, H6. auto.
Qed.
Lemma k_entry_dims p q c : same_dims p q -> k_entry p c -> k_entry q c.
Proof. intros [H1 [H2 _]]. unfold k_entry. rewrite H1, H2. auto. Qed.
Lemma k_zero_dims p q c : same_dims p q -> k_zero p c -> k_zero q c.
Proof. intros [H1 [H2 [H3 [H4 [H5 H6]]]]]. unfold k_zero. rewrite H1, H6. auto. Qed.

Lemma k_shape_w ps c w : vsize w = vsize (kp c) -> k_shape ps c -> k_shape ps (set_w c w).
Proof. intros H [S1 [S2 [S3 S4]]]. split; [exact S1|]. split; [exact H|]. split; [exact S3|exact S4]. Qed.

(** one update of an object that does not accumulate, or of a zeroed one *)
Lemma k_update_exact ps (R : ready ps) c : k_shape ps c -> k_entry ps c -> k_zero ps c ->
  exists c', k_update ps c = Some c' /\ k_same c c' /\ k_shape ps c' /\ k_entry ps c' /\ k_exact ps c'.
Proof.
  intros S En Z. destruct (k_update_ok ps R c S) as [c' [E [Sm [S' [RQ [RE [RF RC]]]]]]].
  exists c'. split; [exact E|]. split; [exact Sm|]. split; [exact S'|].
  destruct Sm as [M1 [M2 [M3 [M4 [M5 M6]]]]].
  split; [unfold k_entry in *; rewrite M1, M2, M3, M4; exact En|].
  assert (EQ : kQf ps c' = kQf ps c /\ kEf ps c' = kEf ps c /\ kff ps c' = kff ps c).
  { unfold kQf, kEf, kff, kK, kR, kT, kH, kG. rewrite M1, M2, M3, M4, M5, M6. auto. }
  destruct EQ as [EQ [EE EF]].
  assert (AC : k_acc_c c = true -> k_acc c = true) by (unfold k_acc, k_acc_c; destruct (kk c); auto; discriminate).
  unfold k_exact. rewrite EQ, EE, EF. unfold k_zero in Z. split; [|split; [|split]].
  - intros i j Hi Hj. rewrite RQ by assumption. destruct (k_acc c); [destruct (Z eq_refl) as [Z1 _]; rewrite Z1 by assumption|]; ring.
  - intros i j Hi Hj. rewrite RE by assumption. destruct (k_acc c); [destruct (Z eq_refl) as [_ [Z1 _]]; rewrite Z1 by assumption|]; ring.
  - intros j Hj. rewrite RF by assumption. destruct (k_acc c); [destruct (Z eq_refl) as [_ [_ [Z1 _]]]; rewrite Z1 by assumption|]; ring.
  - intros j Hj. rewrite RC by assumption. destruct (k_acc_c c); [|ring].
    destruct (Z (AC eq_refl)) as [_ [_ [_ Z1]]]. rewrite Z1 by assumption. ring.
Qed.

Lemma k_updates_app h w ps c : k_updates (h ++ [(w, ps)]) c = (c' <- k_updates h c ;; k_update ps (set_w c' w)).
Proof.
  revert c. induction h as [|[w1 p1] t IH]; intro c; cbn [k_updates app].
  - cbn [obind]. destruct (k_update ps (set_w c w)); reflexivity.
  - destruct (k_update p1 (set_w c w1)); cbn [obind]; [apply IH|reflexivity].
Qed.

(** same inputs, weights aside *)
Definition k_same_data (c c' : cost) : Prop :=
  kk c' = kk c /\ kfull c' = kfull c /\ kM c' = kM c /\ kN c' = kN c /\ kp c' = kp c.

Lemma k_updates_keep ps0 h : forall c, k_shape ps0 c -> cost_history ps0 (vsize (kp c)) h ->
  exists c', k_updates h c = Some c' /\ k_same_data c c' /\ k_shape ps0 c'.
Proof.
  induction h as [|[w p] t IH]; intros c S H; cbn [k_updates].
  - exists c. split; [reflexivity|]. split; [repeat split|exact S].
  - inversion H as [|? ? [Hw [R D]] Ht]; subst. cbn in Hw, R, D.
    destruct (k_update_ok p R (set_w c w)) as [c1 [E [[M1 [M2 [M3 [M4 [M5 M6]]]]] [S1 _]]]].
    { eapply k_shape_dims; [apply same_dims_sym; exact D|]. apply k_shape_w; assumption. }
    rewrite E. cbn [obind]. cbn in M1, M2, M3, M4, M5, M6.
    destruct (IH c1) as [c2 [E2 [[N1 [N2 [N3 [N4 N5]]]] S2]]].
    { eapply k_shape_dims; eassumption. }
    { rewrite M5. exact Ht. }
    exists c2. split; [exact E2|]. split; [repeat split; congruence|exact S2].
Qed.

(** any history for the classes that do not accumulate; the first update for those that do *)
Lemma k_updates_exact ps0 h w ps c : k_shape ps0 c -> k_entry ps0 c -> k_zero ps0 c ->
  k_acc c = false \/ h = [] ->
  cost_history ps0 (vsize (kp c)) (h ++ [(w, ps)]) ->
  exists c', k_updates (h ++ [(w, ps)]) c = Some c' /\ k_same_data c c' /\ kw c' = w /\
    k_shape ps c' /\ k_entry ps c' /\ k_exact ps c'.
Proof.
  intros S En Z Ha H. apply Forall_app in H. destruct H as [H1 H2]. inversion H2 as [|? ? [Hw [R D]] _]; subst. cbn in Hw, R, D.
  destruct (k_updates_keep ps0 h c S H1) as [c1 [E1 [[M1 [M2 [M3 [M4 M5]]]] S1]]].
  assert (D' := same_dims_sym _ _ D).
  destruct (k_update_exact ps R (set_w c1 w)) as [c2 [E2 [[N1 [N2 [N3 [N4 [N5 N6]]]]] [S2 [En2 X2]]]]].
  - apply k_shape_w; [congruence|]. eapply k_shape_dims; eassumption.
  - eapply k_entry_dims; [exact D'|]. unfold k_entry in *. cbn. rewrite M1, M2, M3, M4. exact En.
  - eapply k_zero_dims; [exact D'|]. destruct Ha as [Ha| ->].
    + intro Hc. exfalso. unfold k_acc in *. cbn in Hc. rewrite M1, M2 in Hc. congruence.
    + cbn in E1. injection E1 as <-. exact Z.
  - exists c2. rewrite k_updates_app, E1. cbn [obind]. split; [exact E2|]. cbn in N1, N2, N3, N4, N5, N6.
    split; [repeat split; congruence|]. repeat (split; [assumption|]). exact X2.
Qed.

(** ** Symmetric matrices are determined by the objective *)
Definition unit_v (i : nat) : nat -> Qc := fun k => if Nat.eqb k i then 1%Qc else 0%Qc.

Lemma sum_unit n i f : i < n -> sum n (fun k => unit_v i k * f k)%Qc = f i.
Proof.
  intro H. unfold unit_v. rewrite (sum_ext n _ (fun k => if Nat.eqb k i then f k else 0%Qc)).
  - apply sum_delta. exact H.
  - intros k _. destruct (Nat.eqb k i); ring.
Qed.

Definition two_v (a : Qc) (i : nat) (b : Qc) (j : nat) : nat -> Qc := fun k => (a * unit_v i k + b * unit_v j k)%Qc.

Lemma sum_two n a i b j f : i < n -> j < n -> sum n (fun k => two_v a i b j k * f k)%Qc = (a * f i + b * f j)%Qc.
Proof.
  intros Hi Hj. unfold two_v.
  rewrite (sum_ext n _ (fun k => a * (unit_v i k * f k) + b * (unit_v j k * f k))%Qc) by (intros; ring).
  rewrite sum_add, !sum_scal_l, !sum_unit by assumption. reflexivity.
Qed.

Lemma objective_two n Q c a i b j : i < n -> j < n ->
  objective n Q c (two_v a i b j)
  = (half * (a * (a * Q i i + b * Q i j) + b * (a * Q j i + b * Q j j)) + (a * c i + b * c j))%Qc.
Proof.
  intros Hi Hj. unfold objective. rewrite sum_two by assumption.
  assert (A : forall k, apply n Q (two_v a i b j) k = (a * Q k i + b * Q k j)%Qc).
  { intro k. unfold apply. rewrite (sum_ext n _ (fun l => two_v a i b j l * Q k l)%Qc) by (intros; ring). apply sum_two; assumption. }
  rewrite !A. f_equal.
  rewrite (sum_ext n _ (fun k => two_v a i b j k * c k)%Qc) by (intros; ring). apply sum_two; assumption.
Qed.

Lemma half_double (x : Qc) : (half * x + half * x = x)%Qc.
Proof. assert (E : (half + half = 1)%Qc) by (apply Qc_is_canon; reflexivity). transitivity ((half + half) * x)%Qc; [ring|]. rewrite E. ring. Qed.

Lemma half_cancel (x y : Qc) : (half * x = half * y)%Qc -> x = y.
Proof. intro H. rewrite <- (half_double x), <- (half_double y). rewrite H. reflexivity. Qed.

(** two symmetric quadratic objectives that agree everywhere have the same coefficients *)
Lemma objective_inj n Q c Q' c' : symmetric n Q -> symmetric n Q' ->
  (forall U, objective n Q c U = objective n Q' c' U) ->
  (forall i j, i < n -> j < n -> Q i j = Q' i j) /\ (forall i, i < n -> c i = c' i).
Proof.
  intros S S' H.
  assert (Hd : forall i, i < n -> Q i i = Q' i i /\ c i = c' i).
  { intros i Hi. pose proof (H (two_v 1 i 0 i)) as H1. pose proof (H (two_v (-(1)) i 0 i)) as H2.
    rewrite !objective_two in H1, H2 by assumption.
    assert (E1 : (half * Q i i + c i = half * Q' i i + c' i)%Qc) by (etransitivity; [|etransitivity; [exact H1|]]; ring).
    assert (E2 : (half * Q i i - c i = half * Q' i i - c' i)%Qc) by (etransitivity; [|etransitivity; [exact H2|]]; ring).
    split.
    - rewrite <- (half_double (Q i i)), <- (half_double (Q' i i)).
      transitivity ((half * Q i i + c i) + (half * Q i i - c i))%Qc; [ring|]. rewrite E1, E2. ring.
    - rewrite <- (half_double (c i)), <- (half_double (c' i)).
      transitivity (half * ((half * Q i i + c i) - (half * Q i i - c i)))%Qc; [ring|]. rewrite E1, E2. ring. }
  split; [|intros i Hi; apply Hd; exact Hi].
  intros i j Hi Hj. pose proof (H (two_v 1 i 1 j)) as H1. rewrite !objective_two in H1 by assumption.
  destruct (Hd i Hi) as [Qi Ci]. destruct (Hd j Hj) as [Qj Cj]. rewrite Qi, Qj, Ci, Cj in H1.
  rewrite (S j i Hj Hi), (S' j i Hj Hi) in H1.
  rewrite <- (half_double (Q i j)), <- (half_double (Q' i j)).
  transitivity ((half * (1 * (1 * Q' i i + 1 * Q i j) + 1 * (1 * Q i j + 1 * Q' j j)) + (1 * c' i + 1 * c' j))
     - half * Q' i i - half * Q' j j - c' i - c' j)%Qc; [ring|]. rewrite H1. ring.
Qed.

Lemma k_exact_sym ps c : k_exact ps c -> symmetric (fullUDim ps) (at_ (kQ c)).
Proof. intros [X _] i j Hi Hj. rewrite !X by assumption. apply formQ_sym. Qed.

Lemma k_exact_psd ps c U : k_exact ps c -> (forall r, r < vsize (kp c) -> (0 <= vget (kw c) r)%Qc) ->
  (0 <= sum (fullUDim ps) (fun i => U i * apply (fullUDim ps) (at_ (kQ c)) U i))%Qc.
Proof.
  intros [X _] W.
  rewrite (sum_ext _ _ (fun i => U i * apply (fullUDim ps) (kQf ps c) U i)%Qc).
  - apply formQ_psd. exact W.
  - intros i Hi. f_equal. unfold apply. apply sum_ext; intros j Hj. rewrite X by assumption. reflexivity.
Qed.
