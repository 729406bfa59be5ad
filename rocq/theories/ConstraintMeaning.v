(** ConstraintMeaning.v -- from initializeConstraint through any number of updates to the
    documented meaning of the rows. *)
From Verif Require Import Base Eigen Spec Preview SpecApi AutoSpan Constraints SpecConstraints PreviewProofs ConstraintProofs.

(** ** initializeConstraint establishes the class-specific state *)

Definition lines_ok (c : constr) : Prop :=
  Forall (fun l => l < vsize (clower c)) (lowerLines c) /\ Forall (fun l => l < vsize (cupper c)) (upperLines c).

Lemma filter_lines P n : Forall (fun l => l < n) (filter P (seq 0 n)).
Proof. apply Forall_forall. intros x H. apply filter_In in H. destruct H as [H _]. apply in_seq in H. lia. Qed.

Lemma mkTrajB_lines lo up : lines_ok (mkTrajB lo up).
Proof. split; apply filter_lines. Qed.

(** what initializeConstraint keeps and stores *)
Definition init_kept (ps : psys) (c c' : constr) : Prop :=
  ck c' = ck c /\ isIneq c' = isIneq c /\
  lowerLines c' = lowerLines c /\ upperLines c' = upperLines c /\
  match ck c with
  | KTraj => cE c' = cE c /\ cf c' = cf c /\ rows (cE c) = vsize (cf c) /\
      fullSizeEntry c' = (if Nat.eqb (cols (cE c)) (xDim ps) then fullSizeEntry c else true) /\
      nrConstr c' = (if Nat.eqb (cols (cE c)) (xDim ps) then rows (cE c) * nrXStep ps else rows (cE c)) /\
      (cols (cE c) = xDim ps \/ cols (cE c) = fullXDim ps)
  | KCtrl => rows (cG c) = vsize (cf c) /\
      fullSizeEntry c' = (if Nat.eqb (cols (cG c)) (uDim ps) then fullSizeEntry c else true) /\
      nrConstr c' = (if Nat.eqb (cols (cG c)) (uDim ps) then rows (cG c) * nrUStep ps else rows (cG c)) /\
      (if Nat.eqb (cols (cG c)) (uDim ps) then cG c' = cG c /\ cf c' = cf c
       else cA c' = cG c /\ cb c' = cf c /\ cz c' = cf c /\ cY c' = mzero (rows (cG c)) (xDim ps)) /\
      (cols (cG c) = uDim ps \/ cols (cG c) = fullUDim ps)
  | KMixed => cE c' = cE c /\ cG c' = cG c /\ cf c' = cf c /\ rows (cE c) = vsize (cf c) /\ rows (cG c) = vsize (cf c) /\
      (let step := Nat.eqb (cols (cE c)) (xDim ps) && Nat.eqb (cols (cG c)) (uDim ps) in
       fullSizeEntry c' = (if step then fullSizeEntry c else true) /\
       nrConstr c' = (if step then rows (cE c) * nrUStep ps else rows (cE c)) /\
       (step = true \/ cols (cE c) = fullXDim ps /\ cols (cG c) = fullUDim ps))
  | KTrajB => clower c' = clower c /\ cupper c' = cupper c /\ vsize (clower c) = vsize (cupper c) /\
      fullSizeEntry c' = (if Nat.eqb (vsize (clower c)) (xDim ps) then fullSizeEntry c else true) /\
      nrConstr c' = (if Nat.eqb (vsize (clower c)) (xDim ps)
         then (length (lowerLines c) + length (upperLines c)) * nrXStep ps
         else length (lowerLines c) + length (upperLines c)) /\
      (vsize (clower c) = xDim ps \/ vsize (clower c) = fullXDim ps)
  | KCtrlB => vsize (clower c) = vsize (cupper c) /\
      fullSizeEntry c' = (if Nat.eqb (vsize (clower c)) (uDim ps) then fullSizeEntry c else true) /\
      nrConstr c' = fullUDim ps /\
      (if Nat.eqb (vsize (clower c)) (uDim ps) then clower c' = clower c /\ cupper c' = cupper c
       else clb c' = clower c /\ cub c' = cupper c) /\
      (vsize (clower c) = uDim ps \/ vsize (clower c) = fullUDim ps)
  end.

Lemma resize_sized j ps c nr full : sized ps (resize_rows j ps c nr full).
Proof.
  unfold sized, resize_rows; cbn.
  rewrite !mresize_rows, !mresize_cols, !vresize_size. repeat split.
Qed.

Ltac eqb_eqs := repeat match goal with
  | H : negb _ = false |- _ => apply negb_false_iff in H
  | H : Nat.eqb _ _ = true |- _ => apply Nat.eqb_eq in H
  | H : _ && _ = true |- _ => apply andb_true_iff in H; destruct H
  end.
Ltac use_ifs H := repeat match type of H with
  | (if ?b then _ else _) = Ok _ => let E := fresh "E" in destruct b eqn:E; try discriminate H
  end; try (injection H as <-).

Lemma init_keeps j ps c c' : initializeConstraint j ps c = Ok c' -> init_kept ps c c'.
Proof.
  unfold initializeConstraint, init_kept. intro H.
  destruct (ck c) eqn:K;
    [unfold traj_init in H | unfold ctrl_init in H | unfold mixed_init in H
    | unfold trajB_init in H | unfold ctrlB_init in H]; cbv zeta in H |- *;
    use_ifs H; cbn;
    repeat match goal with E : ?b = _ |- context [if ?b then _ else _] => rewrite E end;
    eqb_eqs; repeat (split; [assumption || reflexivity || congruence|]); auto; try tauto.
  all: repeat match goal with |- context [?b && ?d] => destruct b; destruct d; cbn; try tauto end.
Qed.

Lemma init_shape j ps c c' : initializeConstraint j ps c = Ok c' -> fullSizeEntry c = false ->
  (ck c = KTrajB -> lines_ok c) -> c_shape ps c'.
Proof.
  unfold initializeConstraint, c_shape. intros H F L.
  destruct (ck c) eqn:K;
    [unfold traj_init in H | unfold ctrl_init in H | unfold mixed_init in H
    | unfold trajB_init in H | unfold ctrlB_init in H]; cbv zeta in H; use_ifs H; eqb_eqs;
    cbn [ck set_rows set_flags set_lbub set_EGf set_bounds resize_rows]; rewrite K.
  - split; [apply resize_sized|]. cbn. rewrite F. auto.
  - split; [apply resize_sized|]. cbn. auto.
  - cbn. rewrite F. split; [unfold sized; cbn; rewrite !vresize_size; repeat split|].
    repeat split; try assumption.
  - cbn. split; [unfold sized; cbn; repeat split; assumption || congruence|].
    split; [reflexivity|]. split; [apply veq_refl|]. reflexivity.
  - cbn. rewrite F. split.
    { unfold sized; cbn. rewrite !mresize_rows, !mresize_cols, !vresize_size. repeat split. }
    repeat split; try assumption.
  - cbn. split.
    { unfold sized; cbn. rewrite !mresize_rows, !mresize_cols, !vresize_size. repeat split. }
    repeat split; assumption.
  - destruct (L eq_refl) as [L1 L2]. split; [apply resize_sized|]. cbn. rewrite F. auto.
  - destruct (L eq_refl) as [L1 L2]. split; [apply resize_sized|]. cbn. auto.
  - cbn. rewrite !vresize_size, F. repeat split; congruence.
  - cbn. repeat split; congruence.
Qed.

(** ** Any number of updates *)

Lemma c_update_ok ps (R : ready ps) c : c_shape ps c ->
  exists c', c_update ps c = Some c' /\ same_data c c' /\ c_shape ps c' /\
    (fullSizeEntry c = true -> ck c = KCtrl \/ ck c = KCtrlB -> c' = c) /\
    (ck c <> KCtrlB -> forall r, r < nrConstr c -> crow_ok ps c' r (c_lin ps c r) (c_rhs ps c r)) /\
    (ck c = KCtrlB -> forall i, i < fullUDim ps -> vget (clb c') i = cb_lo ps c i /\ vget (cub c') i = cb_up ps c i).
Proof.
  intro S. unfold c_update. destruct (ck c) eqn:K.
  - destruct (traj_update_ok ps R c K S) as [c' [E [D [S' M]]]]. exists c'. repeat (split; [assumption|]).
    split; [intros _ [X|X]; discriminate|]. split; [auto|discriminate].
  - destruct (ctrl_update_ok ps R c K S) as [c' [E [D [S' M]]]]. exists c'. repeat (split; [assumption|]).
    split; [|split; [auto|discriminate]]. intros F _. unfold ctrl_update in E. rewrite F in E. congruence.
  - destruct (mixed_update_ok ps R c K S) as [c' [E [D [S' M]]]]. exists c'. repeat (split; [assumption|]).
    split; [intros _ [X|X]; discriminate|]. split; [auto|discriminate].
  - destruct (trajB_update_ok ps R c K S) as [c' [E [D [S' M]]]]. exists c'. repeat (split; [assumption|]).
    split; [intros _ [X|X]; discriminate|]. split; [auto|discriminate].
  - destruct (ctrlB_update_ok ps R c K S) as [c' [E [D [S' M]]]]. exists c'. repeat (split; [assumption|]).
    split; [|split; [congruence|auto]]. intros F _. unfold ctrlB_update in E. rewrite F in E. congruence.
Qed.

Lemma same_dims_sym p q : same_dims p q -> same_dims q p.
Proof. intros [H1 [H2 [H3 [H4 [H5 H6]]]]]. repeat split; congruence. Qed.

Lemma c_shape_dims p q c : same_dims p q -> c_shape p c -> c_shape q c.
Proof.
  intros [H1 [H2 [H3 [H4 [H5 H6]]]]]. unfold c_shape, sized. rewrite H1, H2, H3, H4, H5, H6. auto.
Qed.

(** [c'] carries the same data as [c], for the purpose of further updates *)
Definition same_obj (c c' : constr) : Prop :=
  same_data c c' /\ (fullSizeEntry c = true -> ck c = KCtrl \/ ck c = KCtrlB -> c' = c).

Lemma same_data_trans a b c : same_data a b -> same_data b c -> same_data a c.
Proof. unfold same_data. intuition congruence. Qed.

Lemma same_obj_refl c : same_obj c c.
Proof. split; [apply same_data_refl|auto]. Qed.
Lemma same_obj_trans a b c : same_obj a b -> same_obj b c -> same_obj a c.
Proof.
  intros [D1 K1] [D2 K2]. split; [eapply same_data_trans; eassumption|].
  intros F K. pose proof (K1 F K) as ->. apply K2; assumption.
Qed.
Lemma same_obj_lin ps c c' r x U : same_obj c c' -> c_lin ps c' r x U = c_lin ps c r x U.
Proof.
  intros [D K]. destruct D as [D1 [D2 [D3 [D4 [D5 [D6 [D7 [D8 [D9 [D10 [D11 D12]]]]]]]]]]].
  unfold c_lin, tb_steps. rewrite D1. destruct (ck c) eqn:Q; rewrite ?D4, ?D6, ?D7, ?D11, ?D12; try reflexivity.
  destruct (fullSizeEntry c) eqn:F; [|reflexivity]. rewrite (K eq_refl (or_introl eq_refl)). reflexivity.
Qed.
Lemma same_obj_rhs ps c c' r : same_obj c c' -> c_rhs ps c' r = c_rhs ps c r.
Proof.
  intros [D K]. destruct D as [D1 [D2 [D3 [D4 [D5 [D6 [D7 [D8 [D9 [D10 [D11 D12]]]]]]]]]]].
  unfold c_rhs, tb_steps. rewrite D1. destruct (ck c) eqn:Q; rewrite ?D4, ?D6, ?D7, ?D8, ?D9, ?D10, ?D11, ?D12; try reflexivity.
  destruct (fullSizeEntry c) eqn:F; [|reflexivity]. rewrite (K eq_refl (or_introl eq_refl)). reflexivity.
Qed.
Lemma same_obj_lo ps c c' i : ck c = KCtrlB -> same_obj c c' -> cb_lo ps c' i = cb_lo ps c i /\ cb_up ps c' i = cb_up ps c i.
Proof.
  intros Q [D K]. destruct D as [D1 [D2 [D3 [D4 [D5 [D6 [D7 [D8 [D9 [D10 [D11 D12]]]]]]]]]]].
  unfold cb_lo, cb_up. rewrite D4, D9, D10. destruct (fullSizeEntry c) eqn:F; [|auto].
  rewrite (K eq_refl (or_intror Q)). auto.
Qed.

Lemma trow_lin_ext ps A b Y z r lin lin' rhs rhs' :
  (forall x U, lin x U = lin' x U) -> rhs = rhs' -> trow_ok ps A b Y z r lin rhs -> trow_ok ps A b Y z r lin' rhs'.
Proof. intros H <- T. eapply trow_ext; eassumption. Qed.

(** the result of [pss ++ [ps]] updates is described by the object as initialized *)
Definition rows_as (ps : psys) (c c' : constr) : Prop :=
  (ck c <> KCtrlB -> forall r, r < nrConstr c -> crow_ok ps c' r (c_lin ps c r) (c_rhs ps c r)) /\
  (ck c = KCtrlB -> forall i, i < fullUDim ps -> vget (clb c') i = cb_lo ps c i /\ vget (cub c') i = cb_up ps c i).

Lemma updates_keep ps0 : forall pss c, c_shape ps0 c ->
  Forall (fun p => ready p /\ same_dims p ps0) pss ->
  exists c', c_updates pss c = Some c' /\ same_obj c c' /\ c_shape ps0 c'.
Proof.
  induction pss as [|p t IH]; intros c S F; cbn [c_updates].
  - exists c. split; [reflexivity|]. split; [apply same_obj_refl|exact S].
  - inversion F as [|? ? [R D] F']; subst.
    destruct (c_update_ok p R c) as [c' [E [Sd [S' [K _]]]]].
    { eapply c_shape_dims; [apply same_dims_sym; exact D|exact S]. }
    rewrite E. cbn [obind].
    destruct (IH c') as [c2 [E2 [Sd2 S2]]]; [eapply c_shape_dims; eassumption|exact F'|].
    exists c2. split; [exact E2|]. split; [|exact S2].
    eapply same_obj_trans; [split; [exact Sd|exact K]|exact Sd2].
Qed.

Lemma updates_app : forall pss ps c, c_updates (pss ++ [ps]) c = (c' <- c_updates pss c ;; c_update ps c').
Proof.
  induction pss as [|p t IH]; intros ps c; cbn [c_updates app].
  - cbn [obind]. destruct (c_update ps c); reflexivity.
  - destruct (c_update p c); cbn [obind]; [apply IH|reflexivity].
Qed.

Lemma updates_ok ps0 pss ps c : c_shape ps0 c ->
  Forall (fun p => ready p /\ same_dims p ps0) (pss ++ [ps]) ->
  exists c', c_updates (pss ++ [ps]) c = Some c' /\ same_obj c c' /\ c_shape ps c' /\ rows_as ps c c'.
Proof.
  intros S F. apply Forall_app in F. destruct F as [F1 F2]. inversion F2 as [|? ? [R D] _]; subst.
  destruct (updates_keep ps0 pss c S F1) as [c1 [E1 [O1 S1]]].
  destruct (c_update_ok ps R c1) as [c2 [E2 [Sd [S2 [K [M1 M2]]]]]].
  { eapply c_shape_dims; [apply same_dims_sym; exact D|exact S1]. }
  exists c2. rewrite updates_app, E1. cbn [obind]. split; [exact E2|].
  assert (Ck : ck c1 = ck c) by apply O1. assert (Cn : nrConstr c1 = nrConstr c) by apply O1.
  split; [eapply same_obj_trans; [exact O1|split; [exact Sd|exact K]]|]. split; [exact S2|]. split.
  - intros N r Hr. unfold crow_ok. eapply trow_lin_ext; [| |apply M1; congruence].
    + intros x U. apply same_obj_lin. exact O1.
    + apply same_obj_rhs. exact O1.
  - intros N i Hi. destruct (M2 (eq_trans Ck N) i Hi) as [-> ->]. apply same_obj_lo; assumption.
Qed.

(** ** Row-wise meaning and documented meaning *)

(** the documented meaning with [cmp] and the row-wise meaning of an initialized object *)
Definition row_means (ps : psys) (c : constr) (x U : nat -> Qc) : Prop :=
  forall r, r < nrConstr c -> cmp (isIneq c) (c_lin ps c r x U) (c_rhs ps c r).

Lemma rows_mean ps c c' U : ck c <> KCtrlB -> rows_as ps c c' ->
  rows_hold (isIneq c) (nrConstr c) (fullUDim ps) (at_ (cA c')) (vget (cb c')) U <->
  row_means ps c (vget (x0 ps)) U.
Proof.
  intros K [M _]. split; intros H r Hr; apply (row_meaning ps c' r _ _ (isIneq c) U (M K r Hr)); apply H; exact Hr.
Qed.

Lemma rows_mean_ext ps c c' x U : ck c <> KCtrlB -> rows_as ps c c' ->
  (forall r, r < nrConstr c ->
     cmp (isIneq c) (apply (xDim ps) (at_ (cY c')) x r + apply (fullUDim ps) (at_ (cA c')) U r)%Qc (vget (cz c') r))
  <-> row_means ps c x U.
Proof.
  intros K [M _]. split; intros H r Hr; apply (row_meaning_ext ps c' r _ _ (isIneq c) x U (M K r Hr)); apply H; exact Hr.
Qed.

Lemma step_reindex (P : nat -> nat -> Prop) n N :
  (forall r, r < n * N -> P (r / n) (r mod n)) <-> (forall k i, k < N -> i < n -> P k i).
Proof.
  split; intro H.
  - intros k i Hk Hi. specialize (H (k * n + i)). rewrite blk_quot, blk_rem in H by exact Hi. apply H. nia.
  - intros r Hr. rewrite Nat.mul_comm in Hr. destruct (blk_div' _ _ _ Hr) as [k [i [Hk [Hi ->]]]].
    rewrite blk_quot, blk_rem by exact Hi. apply H; assumption.
Qed.

Lemma traj_row_means j ps0 ps E f ineq c x U :
  initializeConstraint j ps0 (mkTraj E f ineq) = Ok c -> same_dims ps ps0 ->
  (row_means ps c x U <-> traj_means ps E f ineq x U).
Proof.
  intros H [D1 [D2 [D3 [D4 [D5 D6]]]]]. apply init_keeps in H. unfold init_kept in H. cbn in H.
  destruct H as [K [I [_ [_ [KE [Kf [Hr [Hs [Hn Hc]]]]]]]]].
  unfold row_means, traj_means, c_lin, c_rhs. rewrite I, K, KE, Kf, Hs, Hn. rewrite <- D1, <- D4.
  destruct (Nat.eqb (cols E) (xDim ps)); cbn [negb].
  - apply (step_reindex (fun k i => cmp ineq (apply (xDim ps) (at_ E) (state_of ps x U k) i) (vget f i))).
  - reflexivity.
Qed.

Lemma ctrl_row_means j ps0 ps G f ineq c x U :
  initializeConstraint j ps0 (mkCtrl G f ineq) = Ok c -> same_dims ps ps0 ->
  (row_means ps c x U <-> ctrl_means ps G f ineq U).
Proof.
  intros H [D1 [D2 [D3 [D4 [D5 D6]]]]]. apply init_keeps in H. unfold init_kept in H. cbn in H.
  destruct H as [K [I [_ [_ [Hr [Hs [Hn [Hd Hc]]]]]]]].
  unfold row_means, ctrl_means, c_lin, c_rhs. rewrite I, K, Hs, Hn. rewrite <- D2, <- D3. rewrite <- D2 in Hd.
  destruct (Nat.eqb (cols G) (uDim ps)).
  - destruct Hd as [-> ->]. apply (step_reindex (fun k i => cmp ineq (apply (uDim ps) (at_ G) (control_at (uDim ps) U k) i) (vget f i))).
  - destruct Hd as [-> [-> _]]. reflexivity.
Qed.

Lemma mixed_row_means j ps0 ps E G f ineq c x U :
  initializeConstraint j ps0 (mkMixed E G f ineq) = Ok c -> same_dims ps ps0 ->
  (row_means ps c x U <-> mixed_means ps E G f ineq x U).
Proof.
  intros H [D1 [D2 [D3 [D4 [D5 D6]]]]]. apply init_keeps in H. unfold init_kept in H. cbn in H.
  destruct H as [K [I [_ [_ [KE [KG [Kf [Hr [Hr2 [Hs [Hn Hc]]]]]]]]]]].
  unfold row_means, mixed_means, c_lin, c_rhs. rewrite I, K, KE, KG, Kf, Hs, Hn. rewrite <- D1, <- D2, <- D3.
  destruct (Nat.eqb (cols E) (xDim ps) && Nat.eqb (cols G) (uDim ps)).
  - apply (step_reindex (fun k i => cmp ineq (apply (xDim ps) (at_ E) (state_of ps x U k) i
                   + apply (uDim ps) (at_ G) (control_at (uDim ps) U k) i)%Qc (vget f i))).
  - reflexivity.
Qed.

(** *** bounds *)

Lemma in_lines (P : nat -> bool) n (Q : nat -> Prop) :
  (forall p, p < length (filter P (seq 0 n)) -> Q (nth p (filter P (seq 0 n)) 0)) <->
  (forall i, i < n -> P i = true -> Q i).
Proof.
  split.
  - intros H i Hi HP. assert (In i (filter P (seq 0 n))) as HIn.
    { apply filter_In. split; [apply in_seq; lia|exact HP]. }
    destruct (In_nth _ _ 0 HIn) as [p [Hp <-]]. apply H; exact Hp.
  - intros H p Hp. pose proof (nth_In _ 0 Hp) as HIn. apply filter_In in HIn. destruct HIn as [H1 H2].
    apply in_seq in H1. apply H; [lia|exact H2].
Qed.

Lemma split_rows (P : nat -> Prop) a b : (forall r, r < a + b -> P r) <-> (forall r, r < a -> P r) /\ (forall r, r < b -> P (a + r)).
Proof.
  split.
  - intro H. split; intros r Hr; apply H; lia.
  - intros [H1 H2] r Hr. destruct (Nat.lt_ge_cases r a) as [L|L]; [apply H1; exact L|].
    replace r with (a + (r - a)) by lia. apply H2. lia.
Qed.

Lemma trajB_row_means j ps0 ps lo up c x U :
  ready ps -> initializeConstraint j ps0 (mkTrajB lo up) = Ok c -> same_dims ps ps0 ->
  (row_means ps c x U <-> traj_below_both ps lo up x U).
Proof.
  intros R H [D1 [D2 [D3 [D4 [D5 D6]]]]]. apply init_keeps in H. unfold init_kept in H. cbn in H.
  destruct H as [K [I [L1 [L2 [K1 [K2 [Hr [Hs [Hn Hc]]]]]]]]].
  rewrite <- D1, <- D5 in Hc. rewrite <- D1 in Hs, Hn. rewrite <- D4 in Hn.
  set (ll := finite_lower_lines lo) in *. set (ul := finite_upper_lines up) in *.
  (* number of steps actually walked through *)
  set (steps := if Nat.eqb (vsize lo) (xDim ps) then nrXStep ps else 1).
  assert (Hst : tb_steps ps c = steps).
  { unfold tb_steps, steps. rewrite Hs. destruct (Nat.eqb (vsize lo) (xDim ps)); reflexivity. }
  assert (Hnr : nrConstr c = length ll * steps + length ul * steps).
  { rewrite Hn. unfold steps. destruct (Nat.eqb (vsize lo) (xDim ps)); lia. }
  assert (G : row_means ps c x U <->
    (forall k, k < steps -> forall i, i < vsize lo ->
       (vget lo i <> NInf -> q_le_ext (stacked_state ps x U (i + xDim ps * k)) (vget lo i)) /\
       q_le_ext (stacked_state ps x U (i + xDim ps * k)) (vget up i))).
  { unfold row_means. rewrite Hnr, I, split_rows. cbn [cmp].
    assert (E1 : (forall r, r < length ll * steps -> q_le_ext (c_lin ps c r x U) (c_rhs ps c r)) <->
       (forall k i, k < steps -> i < length ll ->
          q_le_ext (stacked_state ps x U (nth i ll 0 + xDim ps * k)) (vget lo (nth i ll 0)))).
    { rewrite <- step_reindex. split; intros H r Hr'; specialize (H r Hr'); revert H;
        unfold c_lin, c_rhs; rewrite K, L1, L2, Hst, K1; rewrite (proj2 (Nat.ltb_lt _ _) Hr'); unfold tb_src; auto. }
    assert (E2 : (forall r, r < length ul * steps -> q_le_ext (c_lin ps c (length ll * steps + r) x U) (c_rhs ps c (length ll * steps + r))) <->
       (forall k i, k < steps -> i < length ul ->
          q_le_ext (stacked_state ps x U (nth i ul 0 + xDim ps * k)) (vget up (nth i ul 0)))).
    { rewrite <- step_reindex. split; intros H r Hr'; specialize (H r Hr'); revert H;
        unfold c_lin, c_rhs; rewrite K, L1, L2, Hst, K2;
        rewrite (proj2 (Nat.ltb_ge (length ll * steps + r) (length ll * steps))) by lia;
        replace (length ll * steps + r - length ll * steps) with r by lia; unfold tb_src; auto. }
    rewrite E1, E2. clear E1 E2. split.
    - intros [H1 H2] k Hk i Hi. split.
      + intro Hni. specialize (fun i => H1 k i Hk). unfold ll, finite_lower_lines in H1.
        rewrite (in_lines (fun i => negb (is_ninf (vget lo i))) (vsize lo)
          (fun l => q_le_ext (stacked_state ps x U (l + xDim ps * k)) (vget lo l))) in H1.
        apply H1; [exact Hi|]. destruct (vget lo i); cbn; congruence.
      + specialize (fun i => H2 k i Hk). unfold ul, finite_upper_lines in H2.
        rewrite (in_lines (fun i => negb (is_pinf (vget up i))) (vsize up)
          (fun l => q_le_ext (stacked_state ps x U (l + xDim ps * k)) (vget up l))) in H2.
        destruct (is_pinf (vget up i)) eqn:P; [destruct (vget up i); cbn in P |- *; congruence || exact Logic.I|].
        apply H2; [congruence|]. rewrite P. reflexivity.
    - intro H. split; intros k i Hk.
      + revert i. apply (in_lines (fun i => negb (is_ninf (vget lo i))) (vsize lo)
          (fun l => q_le_ext (stacked_state ps x U (l + xDim ps * k)) (vget lo l))).
        intros i Hi P. apply (H k Hk i Hi). intro E. rewrite E in P. discriminate P.
      + revert i. apply (in_lines (fun i => negb (is_pinf (vget up i))) (vsize up)
          (fun l => q_le_ext (stacked_state ps x U (l + xDim ps * k)) (vget up l))).
        intros i Hi P. apply (H k Hk i). congruence. }
  rewrite G. unfold traj_below_both, below_both, steps.
  destruct (Nat.eqb_spec (vsize lo) (xDim ps)) as [Ex|Ex].
  - rewrite Ex. split; intros H k Hk i Hi; specialize (H k Hk i Hi); revert H;
      unfold stacked_state; replace (i + xDim ps * k) with (k * xDim ps + i) by lia;
      rewrite blk_quot, blk_rem by exact Hi; auto.
  - destruct Hc as [Hc|Hc]; [congruence|]. rewrite Hc. split.
    + intros H i Hi. specialize (H 0 ltac:(lia) i Hi). rewrite Nat.mul_0_r, Nat.add_0_r in H. exact H.
    + intros H k Hk i Hi. assert (k = 0) by lia. subst k. rewrite Nat.mul_0_r, Nat.add_0_r. apply H; exact Hi.
Qed.

Lemma ctrlB_bounds_mean j ps0 ps lo up c c' U :
  ready ps -> initializeConstraint j ps0 (mkCtrlB lo up) = Ok c -> same_dims ps ps0 -> rows_as ps c c' ->
  (within_bounds (fullUDim ps) (vget (clb c')) (vget (cub c')) U <-> ctrl_between ps lo up U).
Proof.
  intros R H [D1 [D2 [D3 [D4 [D5 D6]]]]] [_ M]. apply init_keeps in H. unfold init_kept in H. cbn in H.
  destruct H as [K [I [_ [_ [Hr [Hs [Hn [Hd Hc]]]]]]]]. rewrite <- D2 in Hd, Hc, Hs. rewrite <- D6 in Hc.
  specialize (M K). unfold ctrl_between, within_bounds.
  transitivity (forall i, i < fullUDim ps -> ext_le_q (cb_lo ps c i) (U i) /\ q_le_ext (U i) (cb_up ps c i)).
  { split; intros H i Hi; specialize (H i Hi); destruct (M i Hi) as [E1 E2]; rewrite ?E1, ?E2 in *; exact H. }
  unfold cb_lo, cb_up. rewrite Hs. destruct (Nat.eqb_spec (vsize lo) (uDim ps)) as [Ex|Ex].
  - destruct Hd as [-> ->]. rewrite (rd_fu ps R).
    transitivity (forall k i, k < nrUStep ps -> i < uDim ps ->
      ext_le_q (vget lo i) (control_at (uDim ps) U k i) /\ q_le_ext (control_at (uDim ps) U k i) (vget up i));
      [|split; [intros H k Hk i Hi; exact (H k i Hk Hi)|intros H k i Hk Hi; exact (H k Hk i Hi)]].
    etransitivity; [|apply (step_reindex (fun k i => ext_le_q (vget lo i) (control_at (uDim ps) U k i) /\
                                          q_le_ext (control_at (uDim ps) U k i) (vget up i)) (uDim ps) (nrUStep ps))].
    unfold control_at. split; intros H r Hr'; specialize (H r Hr'); revert H;
      rewrite (Nat.mul_comm (r / uDim ps)), <- (Nat.div_mod r (uDim ps)) by (intro Z; rewrite Z in Hr'; lia); auto.
  - destruct Hd as [-> ->]. reflexivity.
Qed.
