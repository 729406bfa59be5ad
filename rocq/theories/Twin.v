(** Twin.v -- C74: a run with rounding errors and the run without make the same calls succeed and throw. *)
From Verif Require Import Base Eigen Spec Preview SpecApi AutoSpan Constraints SpecConstraints Costs SpecCosts Controller Registry
  SpecController SpecProtocol Protocol SpecEndToEnd EndToEnd
  Floats SpecFloats FloatCosts FloatController SpecFloatRun FloatProtocol FloatTrace SpecTwin.
Open Scope nat_scope.
Open Scope list_scope.

(** ** What is compared *)
Definition bp (s : psys) : psys :=
  PS (isUpdated s) (nrUStep s) (nrXStep s) (xDim s) (uDim s) (fullXDim s) (fullUDim s) (x0 s) (psA s) (psB s) (psd s) mempty mempty qempty.
Definition bc (c : constr) : constr := match ck c with KCtrl | KCtrlB => c | _ => set_rows c mempty eempty mempty eempty end.
Definition bk (c : cost) : cost := set_qp c mempty qempty mempty qempty.
Definition bm (m : lmpc) : lmpc := set_sol (set_result (set_qpm m qp_empty) qempty qempty) qempty.
Definition tw (w v : world) : Prop :=
  (forall p, bp (wps w p) = bp (wps v p)) /\ ncon w = ncon v /\ (forall i, bc (wcon w i) = bc (wcon v i)) /\ (forall i, hcon w i = hcon v i) /\
  ncost w = ncost v /\ (forall i, bk (wcost w i) = bk (wcost v i)) /\ (forall i, hcost w i = hcost v i) /\ bm (ctl w) = bm (ctl v).
Definition orel {A} (R : A -> A -> Prop) (r r' : outcome A) : Prop :=
  match r, r' with
  | Ok a, Ok b => R a b
  | Throw e a, Throw e' b => e = e' /\ R a b
  | UB, _ | _, UB => True
  | _, _ => False
  end.
Lemma orel_map {A B} (R : A -> A -> Prop) (S : B -> B -> Prop) f g r r' : (forall a b, R a b -> S (f a) (g b)) ->
  orel R r r' -> orel S (out_map f r) (out_map g r').
Proof. intros H. destruct r, r'; cbn; auto. intros [E K]; auto. Qed.

Lemma bp_twin s t : bp s = bp t <-> twin_systems s t.
Proof.
  unfold twin_systems. split.
  - intro H. refine (conj (f_equal isUpdated H) (conj (f_equal nrUStep H) (conj (f_equal nrXStep H) (conj (f_equal xDim H)
      (conj (f_equal uDim H) (conj (f_equal fullXDim H) (conj (f_equal fullUDim H) (conj (f_equal x0 H) (conj (f_equal psA H)
      (conj (f_equal psB H) (f_equal psd H))))))))))).
  - intros [A1 [A2 [A3 [A4 [A5 [A6 [A7 [A8 [A9 [A10 A11]]]]]]]]]]. unfold bp.
    rewrite A1, A2, A3, A4, A5, A6, A7, A8, A9, A10, A11. reflexivity.
Qed.
Lemma rows_twin c d : set_rows c mempty eempty mempty eempty = set_rows d mempty eempty mempty eempty ->
  isIneq c = isIneq d /\ nrConstr c = nrConstr d /\ fullSizeEntry c = fullSizeEntry d /\ hasBeenInit c = hasBeenInit d /\
  cE c = cE d /\ cG c = cG d /\ cf c = cf d /\ clower c = clower d /\ cupper c = cupper d /\
  lowerLines c = lowerLines d /\ upperLines c = upperLines d /\ clb c = clb d /\ cub c = cub d.
Proof.
  intro H. refine (conj (f_equal isIneq H) (conj (f_equal nrConstr H) (conj (f_equal fullSizeEntry H) (conj (f_equal hasBeenInit H)
    (conj (f_equal cE H) (conj (f_equal cG H) (conj (f_equal cf H) (conj (f_equal clower H) (conj (f_equal cupper H)
    (conj (f_equal lowerLines H) (conj (f_equal upperLines H) (conj (f_equal clb H) (f_equal cub H))))))))))))).
Qed.
Lemma eq_twin c : twin_cons c c.
Proof. unfold twin_cons. repeat (split; [reflexivity|]). split; reflexivity. Qed.
Lemma bc_twin c d : bc c = bc d <-> twin_cons c d.
Proof.
  split.
  - intro H. assert (K : ck c = ck d).
    { apply (f_equal ck) in H. unfold bc in H. destruct (ck c) eqn:E1, (ck d) eqn:E2; cbn in H; congruence. }
    assert (G : ck c <> KCtrl -> ck c <> KCtrlB -> twin_cons c d).
    { intros N1 N2. assert (H' : set_rows c mempty eempty mempty eempty = set_rows d mempty eempty mempty eempty).
      { unfold bc in H. rewrite <- K in H. destruct (ck c); congruence || exact H. }
      apply rows_twin in H'. unfold twin_cons. repeat match goal with X : _ /\ _ |- _ => destruct X as [? X] end.
      repeat (split; [assumption|]). split; intro; contradiction. }
    unfold bc in H. rewrite <- K in H. destruct (ck c) eqn:Ec; try (apply G; discriminate); rewrite H; apply eq_twin.
  - unfold twin_cons. intros [K [T1 [T2 [T3 [T4 [T5 [T6 [T7 [T8 [T9 [T10 [T11 [T12 [T13 [T14 T15]]]]]]]]]]]]]]].
    unfold bc. rewrite <- K. destruct (ck c) eqn:Ec; auto; unfold set_rows; rewrite <- K, Ec, T1, T2, T3, T4, T5, T6, T7, T8, T9, T10, T11, T12, T13; reflexivity.
Qed.
Ltac twin := apply bc_twin; unfold twin_cons; cbn;
  repeat match goal with |- _ = _ /\ _ => split; [first [assumption|reflexivity|congruence]|] end;
  split; let KK := fresh in intro KK; exfalso; revert KK; match goal with Ec : ck _ = _ |- _ => rewrite ?Ec; discriminate end.
Lemma bk_twin c d : bk c = bk d <-> twin_costs c d.
Proof.
  unfold twin_costs. split.
  - intro H. refine (conj (f_equal kk H) (conj (f_equal kfull H) (conj (f_equal kM H) (conj (f_equal kN H) (conj (f_equal kp H) (f_equal kw H)))))).
  - intros [A1 [A2 [A3 [A4 [A5 A6]]]]]. unfold bk, set_qp. rewrite A1, A2, A3, A4, A5, A6. reflexivity.
Qed.
Lemma bm_twin a b : bm a = bm b <-> twin_controllers a b.
Proof.
  unfold twin_controllers. split.
  - intro H. refine (conj (f_equal m_is H) (conj (f_equal m_ps H) (conj (f_equal nrEq H) (conj (f_equal nrIneq H)
      (conj (f_equal spC H) (conj (f_equal spEq H) (conj (f_equal spIneq H) (conj (f_equal spB H) (conj (f_equal spCost H)
      (conj (f_equal solveTime H) (f_equal sabTime H))))))))))).
  - intros [A1 [A2 [A3 [A4 [A5 [A6 [A7 [A8 [A9 [A10 A11]]]]]]]]]]. unfold bm, set_sol, set_result, set_qpm. cbn.
    rewrite A1, A2, A3, A4, A5, A6, A7, A8, A9, A10, A11. reflexivity.
Qed.
Lemma tw_twins w v : tw w v <-> twins w v.
Proof.
  unfold tw, twins. split; intros [A [B [C [D0 [E [G [H I]]]]]]]; (split; [|split; [|split; [|split; [|split; [|split; [|split]]]]]]); auto;
    try (intro; apply bp_twin || apply bc_twin || apply bk_twin; auto); apply bm_twin; assumption.
Qed.

(** ** Constraints *)
Lemma bc_kind c d : bc c = bc d -> ck c = ck d.
Proof. intro H. apply bc_twin in H. apply H. Qed.
Lemma c_autoSpan_rel j c d : bc c = bc d -> orel (fun a b => bc a = bc b) (c_autoSpan j c) (c_autoSpan j d).
Proof.
  intro H. pose proof H as T. apply bc_twin in T. destruct T as [K [T1 [T2 [T3 [T4 [T5 [T6 [T7 [T8 [T9 [T10 [T11 [T12 [T13 [T14 T15]]]]]]]]]]]]]]].
  unfold c_autoSpan. rewrite <- K. destruct (ck c) eqn:Ec.
  - unfold traj_autoSpan. rewrite <- T5, <- T7.
    destruct (spanMatrix _ _ _) as [E|e E|]; [|split; [reflexivity|]|exact I].
    + destruct (spanVector _ _ _) as [f|e f|]; [|split; [reflexivity|]|exact I]; twin.
    + twin.
  - specialize (T14 eq_refl). subst d. destruct (ctrl_autoSpan j c); cbn; auto.
  - unfold mixed_autoSpan. rewrite <- T5, <- T6, <- T7.
    destruct (spanMatrix (cE c) _ _) as [E|e E|]; [|split; [reflexivity|]|exact I].
    + destruct (spanMatrix (cG c) _ _) as [G|e G|]; [|split; [reflexivity|]|exact I].
      * destruct (spanVector _ _ _) as [f|e f|]; [|split; [reflexivity|]|exact I]; twin.
      * twin.
    + twin.
  - unfold trajB_autoSpan. rewrite <- T8, <- T9, <- T10, <- T11.
    destruct (spanVector (jext j 0) _ _) as [E|e E|]; [|split; [reflexivity|]|exact I].
    + destruct (spanVector (jext j 1) _ _) as [f|e f|]; [|split; [reflexivity|]|exact I]; twin.
    + twin.
  - specialize (T15 eq_refl). subst d. destruct (ctrlB_autoSpan j c); cbn; auto.
Qed.
Lemma c_init_rel j s t c d : bp s = bp t -> bc c = bc d ->
  orel (fun a b => bc a = bc b) (initializeConstraint j s c) (initializeConstraint j t d).
Proof.
  intros S H. pose proof H as T. apply bc_twin in T. destruct T as [K [T1 [T2 [T3 [T4 [T5 [T6 [T7 [T8 [T9 [T10 [T11 [T12 [T13 [T14 T15]]]]]]]]]]]]]]].
  apply bp_twin in S. destruct S as [S1 [S2 [S3 [S4 [S5 [S6 [S7 _]]]]]]].
  unfold initializeConstraint. rewrite <- K. destruct (ck c) eqn:Ec.
  - unfold traj_init. rewrite <- T5, <- T7, <- S4, <- S6, <- S3, <- T3.
    repeat match goal with |- context [if ?x then _ else _] => destruct x end; cbn; auto; twin.
  - specialize (T14 eq_refl). subst d. unfold ctrl_init. rewrite <- S5, <- S2, <- S7, <- S4.
    repeat match goal with |- context [if ?x then _ else _] => destruct x end; cbn; auto.
  - unfold mixed_init. rewrite <- T5, <- T6, <- T7, <- S4, <- S5, <- S6, <- S2, <- S7, <- T3.
    repeat match goal with |- context [if ?x then _ else _] => destruct x end; cbn; auto; twin.
  - unfold trajB_init. rewrite <- T8, <- T9, <- T10, <- T11, <- S4, <- S6, <- S3, <- T3.
    repeat match goal with |- context [if ?x then _ else _] => destruct x end; cbn; auto; twin.
  - specialize (T15 eq_refl). subst d. unfold ctrlB_init. rewrite <- S5, <- S7.
    repeat match goal with |- context [if ?x then _ else _] => destruct x end; cbn; auto.
Qed.
Ltac peel H := repeat match type of H with
  | obind ?x _ = Some _ => destruct x as [?y|] eqn:?; cbn [obind] in H; [|discriminate H]
  | (if ?b then _ else _) = Some _ => destruct b eqn:?
  | (let '(_, _) := ?y in _) = Some _ => destruct y
  end.
Lemma for_same {S} a b (f g : nat -> S -> option S) s : (forall i p, f i p = g i p) -> for_ a b f s = for_ a b g s.
Proof.
  intro X. unfold for_. generalize (b - a). intro k. revert a s. induction k as [|k IH]; intros a s; cbn [floop]; [reflexivity|].
  rewrite X. destruct (g a s); cbn [obind]; auto.
Qed.
(** what one update keeps *)
Lemma c_update_rel F s t c d c' d' : bp s = bp t -> bc c = bc d -> f_c_update F s c = Some c' -> c_update t d = Some d' -> bc c' = bc d'.
Proof.
  intros S H U V. pose proof H as T. apply bc_twin in T. destruct T as [K [T1 [T2 [T3 [T4 [T5 [T6 [T7 [T8 [T9 [T10 [T11 [T12 [T13 [T14 T15]]]]]]]]]]]]]]].
  apply bp_twin in S. destruct S as [S1 [S2 [S3 [S4 [S5 [S6 [S7 _]]]]]]].
  unfold f_c_update in U. unfold c_update in V. rewrite <- K in V. destruct (ck c) eqn:Ec.
  - unfold f_traj_update in U. unfold traj_update in V. peel U; peel V; injection U as <-; injection V as <-; twin.
  - specialize (T14 eq_refl). subst d. unfold ctrl_update in U, V. rewrite <- S2 in V.
    assert (X : forall G f i p, ctrl_step t G f i p = ctrl_step s G f i p) by (intros; unfold ctrl_step; rewrite S5; reflexivity).
    destruct (fullSizeEntry c); [congruence|].
    rewrite (for_same _ _ _ _ _ (X _ _)) in V. rewrite U in V. congruence.
  - unfold f_mixed_update in U. unfold mixed_update in V. peel U; peel V; injection U as <-; injection V as <-; twin.
  - unfold f_trajB_update in U. unfold trajB_update in V. cbv zeta in U, V. peel U; peel V; injection U as <-; injection V as <-; twin.
  - specialize (T15 eq_refl). subst d. unfold ctrlB_update in U, V. rewrite <- S2 in V.
    assert (X : forall a b i p, ctrlB_step t a b i p = ctrlB_step s a b i p) by (intros; unfold ctrlB_step; rewrite S5; reflexivity).
    destruct (fullSizeEntry c); [congruence|].
    rewrite (for_same _ _ _ _ _ (X _ _)) in V. rewrite U in V. congruence.
Qed.

(** ** Costs *)
Ltac twink := apply bk_twin; unfold twin_costs; cbn;
  repeat match goal with |- _ = _ /\ _ => split; [first [assumption|reflexivity|congruence]|] end; first [assumption|reflexivity|congruence].
Ltac costs H := let T := fresh in pose proof H as T; apply bk_twin in T; destruct T as [K [T1 [T2 [T3 [T4 T5]]]]].
Lemma span_pw_rel j c d M N md : bk c = bk d -> orel (fun a b => bk a = bk b) (span_pw j c M N md) (span_pw j d M N md).
Proof.
  intro H. costs H. unfold span_pw. rewrite <- T4, <- T5.
  destruct (spanVector (jvec j 0) _ _) as [p|e p|]; [|split; [reflexivity|twink]|exact I].
  destruct (spanVector (jvec j 1) _ _) as [w|e w|]; [twink|split; [reflexivity|twink]|exact I].
Qed.
Lemma k_autoSpan_rel j c d : bk c = bk d -> orel (fun a b => bk a = bk b) (k_autoSpan j c) (k_autoSpan j d).
Proof.
  intro H. costs H. unfold k_autoSpan. rewrite <- K. destruct (kk c) eqn:Ec.
  - unfold trajC_autoSpan. rewrite <- T2, <- T3, <- T4, <- T5.
    destruct (spanMatrix _ _ _) as [M|e M|]; [apply span_pw_rel; exact H|split; [reflexivity|twink]|exact I].
  - exact H.
  - unfold ctrlC_autoSpan. rewrite <- T2, <- T3, <- T4, <- T5.
    destruct (spanMatrix _ _ _) as [M|e M|]; [apply span_pw_rel; exact H|split; [reflexivity|twink]|exact I].
  - unfold mixedC_autoSpan. rewrite <- T2, <- T3, <- T4, <- T5.
    destruct (spanMatrix (kM c) _ _) as [M|e M|]; [|split; [reflexivity|twink]|exact I].
    destruct (spanMatrix (kN c) _ _) as [N|e N|]; [apply span_pw_rel; exact H|split; [reflexivity|twink]|exact I].
Qed.
Lemma k_weights_rel c d w : bk c = bk d -> orel (fun a b => bk a = bk b) (k_weights c w) (k_weights d w).
Proof.
  intro H. costs H. unfold k_weights. rewrite <- T5.
  destruct (Nat.eqb _ _); [twink|]. destruct (Nat.eqb _ _); [exact I|]. destruct (Nat.eqb _ _); [|split; [reflexivity|exact H]].
  destruct (for_ _ _ _ _); cbn; [twink|exact I].
Qed.
Lemma k_weight_rel c d x : bk c = bk d -> bk (k_weight c x) = bk (k_weight d x).
Proof. intro H. costs H. unfold k_weight. rewrite <- T5. twink. Qed.
Lemma k_init_rel j s t c d : bp s = bp t -> bk c = bk d -> orel (fun a b => bk a = bk b) (initializeCost j s c) (initializeCost j t d).
Proof.
  intros S H. costs H. apply bp_twin in S. destruct S as [S1 [S2 [S3 [S4 [S5 [S6 [S7 _]]]]]]].
  unfold initializeCost. rewrite <- K. destruct (kk c) eqn:Ec.
  - unfold trajC_init. cbv zeta. cbn [kM kp k_resize set_qp]. rewrite <- T2, <- T4, <- S4, <- S6.
    repeat match goal with |- context [if ?x then _ else _] => destruct x end; cbn; try split; try reflexivity; twink.
  - unfold targetC_init. cbv zeta. cbn [kM kp k_resize set_qp]. rewrite <- T2, <- T4, <- S4.
    repeat match goal with |- context [if ?x then _ else _] => destruct x end; cbn; try split; try reflexivity; twink.
  - unfold ctrlC_init. cbv zeta. cbn [kN kp k_resize set_qp]. rewrite <- T3, <- T4, <- S5, <- S7.
    repeat match goal with |- context [if ?x then _ else _] => destruct x end; cbn; try split; try reflexivity; twink.
  - unfold mixedC_init. cbv zeta. cbn [kM kN kp k_resize set_qp]. rewrite <- T2, <- T3, <- T4, <- S4, <- S5, <- S6, <- S7.
    repeat match goal with |- context [if ?x then _ else _] => destruct x end; cbn; try split; try reflexivity; twink.
Qed.
Lemma k_update_rel F s t c d c' d' : bk c = bk d -> f_k_update F s c = Some c' -> k_update t d = Some d' -> bk c' = bk d'.
Proof.
  intros H U V. assert (A : bk c' = bk c).
  { unfold f_k_update in U. destruct (kk c); [unfold f_trajC_update in U|unfold f_targetC_update in U|unfold f_ctrlC_update in U|unfold f_mixedC_update in U];
      cbv zeta in U; peel U; injection U as <-; reflexivity. }
  assert (B : bk d' = bk d).
  { unfold k_update in V. destruct (kk d); [unfold trajC_update in V|unfold targetC_update in V|unfold ctrlC_update in V|unfold mixedC_update in V];
      cbv zeta in V; peel V; injection V as <-; reflexivity. }
  congruence.
Qed.

(** ** Programs *)
Lemma for_list_rel {S} (R : S -> S -> Prop) (f g : nat -> S -> option S) : forall l a b a' b',
  (forall x p q p' q', R p q -> f x p = Some p' -> g x q = Some q' -> R p' q') ->
  R a b -> for_list l f a = Some a' -> for_list l g b = Some b' -> R a' b'.
Proof.
  induction l as [|x l IH]; intros a b a' b' H Rab U V; cbn [for_list] in *; [congruence|].
  destruct (f x a) as [p|] eqn:E1; [cbn [obind] in U|discriminate U]. destruct (g x b) as [q|] eqn:E2; [cbn [obind] in V|discriminate V].
  eapply IH; [exact H| |exact U|exact V]. eapply H; eassumption.
Qed.
Lemma check_same uc uc' lim : (forall l i, uc l i = uc' l i) -> forall todo kept, check uc lim kept todo = check uc' lim kept todo.
Proof. intro H. induction todo as [|i t IH]; intro kept; cbn [check]; [reflexivity|]. rewrite H, !IH. reflexivity. Qed.
Lemma upd_rel {A B} (f : A -> B) (g h : nat -> A) i x y : (forall k, f (g k) = f (h k)) -> f x = f y -> forall k, f (upd g i x k) = f (upd h i y k).
Proof. intros G E k. unfold upd. destruct (Nat.eqb k i); auto. Qed.
Lemma upd_eq {A} (g h : nat -> A) i x : (forall k, g k = h k) -> forall k, upd g i x k = upd h i x k.
Proof. intros G k. unfold upd. destruct (Nat.eqb k i); auto. Qed.

Lemma tw_ctl w v a b : tw w v -> bm a = bm b -> tw (set_ctl w a) (set_ctl v b).
Proof. intros [A [B [C [D0 [E [G [H I]]]]]]] X. repeat (split; [assumption|]). exact X. Qed.
Lemma tw_con w v i c d : tw w v -> bc c = bc d -> tw (set_con w i c) (set_con v i d).
Proof. intros [A [B [C [D0 [E [G [H I]]]]]]] X. repeat (split; [first [assumption|apply (upd_rel bc); assumption]|]). exact I. Qed.
Lemma tw_cost w v i c d : tw w v -> bk c = bk d -> tw (set_cost w i c) (set_cost v i d).
Proof. intros [A [B [C [D0 [E [G [H I]]]]]]] X. repeat (split; [first [assumption|apply (upd_rel bk); assumption]|]). exact I. Qed.
Lemma tw_ps w v p s t : tw w v -> bp s = bp t -> tw (set_ps w p s) (set_ps v p t).
Proof. intros [A [B [C [D0 [E [G [H I]]]]]]] X. repeat (split; [first [assumption|apply (upd_rel bp); assumption]|]). exact I. Qed.
Lemma orel_con w v i f g : tw w v -> (0 < hcon w i -> orel tw (f w) (g v)) -> orel tw (with_con w i f) (with_con v i g).
Proof.
  intros T X. unfold with_con. rewrite <- (proj1 (proj2 (proj2 (proj2 T)))). destruct (Nat.ltb_spec 0 (hcon w i)) as [L|L]; [apply X, L|exact T].
Qed.
Lemma orel_cost w v i f g : tw w v -> (0 < hcost w i -> orel tw (f w) (g v)) -> orel tw (with_cost w i f) (with_cost v i g).
Proof.
  intros T X. unfold with_cost. rewrite <- (proj1 (proj2 (proj2 (proj2 (proj2 (proj2 (proj2 T))))))). destruct (Nat.ltb_spec 0 (hcost w i)) as [L|L]; [apply X, L|exact T].
Qed.
Definition ctl_eqs (a b : lmpc) : twin_controllers a b -> bm a = bm b := proj2 (bm_twin a b).
Ltac ctls := apply ctl_eqs; unfold twin_controllers; cbn [m_is m_ps nrEq nrIneq spC spEq spIneq spB spCost m_qp m_traj m_ctrl m_sol solveTime sabTime set_qpm set_lists set_costs set_mps set_is set_sol set_result set_times ctl set_cost set_con set_ctl updateQPMatrixSize]; repeat (split; [first [assumption|reflexivity|congruence]|]); first [assumption|reflexivity|congruence].
Ltac ctl_of H := let T := fresh in pose proof (proj2 (proj2 (proj2 (proj2 (proj2 (proj2 (proj2 H))))))) as T; apply bm_twin in T;
  destruct T as [M1 [M2 [M3 [M4 [M5 [M6 [M7 [M8 [M9 [M10 M11]]]]]]]]]].

Lemma initController_rel j w v p : tw w v -> orel tw (of_opt (initializeController j w p)) (of_opt (initializeController j v p)).
Proof.
  intro T. ctl_of T. pose proof (proj1 (bp_twin _ _) (proj1 T p)) as [S1 [S2 [S3 [S4 [S5 [S6 [S7 _]]]]]]].
  unfold initializeController, clearConstraintMatrices. 
  assert (X : optSize (set_mps (ctl v) p) (wps v p) = optSize (set_mps (ctl w) p) (wps w p)).
  { unfold optSize. cbn. rewrite <- M1, <- S4, <- S7. reflexivity. }
  rewrite X. destruct (fits_int _); [|exact I]. cbn [obind of_opt orel]. apply tw_ctl; [exact T|]. ctls.
Qed.
Lemma byType_rel w v i : tw w v -> orel tw (of_opt (addConstraintByType w i)) (of_opt (addConstraintByType v i)).
Proof.
  intro T. ctl_of T. pose proof (proj1 (bc_twin _ _) (proj1 (proj2 (proj2 T)) i)) as [K [Q1 [Q2 _]]].
  unfold addConstraintByType, constraintType. rewrite <- K, <- Q1, <- Q2, <- M3, <- M4.
  destruct (ck (wcon w i)); [destruct (isIneq (wcon w i))|destruct (isIneq (wcon w i))|destruct (isIneq (wcon w i))| |];
    repeat match goal with |- context [fits_int ?a] => destruct (fits_int a) end; cbn [obind of_opt orel]; try exact I;
    (apply tw_ctl; [exact T|ctls]).
Qed.
Lemma plain_rel w v o : plain_op o -> tw w v -> orel tw (step w o) (step v o).
Proof.
  intros PO T. ctl_of T. destruct o; cbn [plain_op] in PO; try contradiction PO; cbn [step].
  - destruct T as [A [B [C [D0 [E [G [H I]]]]]]]. cbn [orel]. unfold tw. cbn. rewrite <- B.
    split; [assumption|]. split; [reflexivity|]. split; [apply (upd_rel bc); auto|]. split; [apply upd_eq; assumption|]. repeat (split; [assumption|]). assumption.
  - apply orel_con; [exact T|]. intros _. destruct T as [A [B [C [D0 [E [G [H I]]]]]]]. cbn [orel]. unfold tw. cbn. rewrite <- D0.
    split; [assumption|]. split; [assumption|]. split; [assumption|]. split; [apply upd_eq; assumption|]. repeat (split; [assumption|]). assumption.
  - apply orel_con; [exact T|]. intros _. destruct T as [A [B [C [D0 [E [G [H I]]]]]]]. cbn [orel]. unfold tw. cbn. rewrite <- D0.
    split; [assumption|]. split; [assumption|]. split; [assumption|]. split; [apply upd_eq; assumption|]. repeat (split; [assumption|]). assumption.
  - apply orel_con; [exact T|]. intros _. eapply orel_map; [|apply c_autoSpan_rel; exact (proj1 (proj2 (proj2 T)) i)]. intros a b E. apply tw_con; assumption.
  - destruct T as [A [B [C [D0 [E [G [H I]]]]]]]. cbn [orel]. unfold tw. cbn. rewrite <- E.
    repeat (split; [assumption || reflexivity|]). split; [apply (upd_rel bk); auto|]. split; [apply upd_eq; assumption|]. assumption.
  - apply orel_cost; [exact T|]. intros _. destruct T as [A [B [C [D0 [E [G [H I]]]]]]]. cbn [orel]. unfold tw. cbn. rewrite <- H.
    repeat (split; [assumption|]). split; [apply upd_eq; assumption|]. assumption.
  - apply orel_cost; [exact T|]. intros _. destruct T as [A [B [C [D0 [E [G [H I]]]]]]]. cbn [orel]. unfold tw. cbn. rewrite <- H.
    repeat (split; [assumption|]). split; [apply upd_eq; assumption|]. assumption.
  - apply orel_cost; [exact T|]. intros _. eapply orel_map; [|apply k_autoSpan_rel; exact (proj1 (proj2 (proj2 (proj2 (proj2 (proj2 T))))) i)]. intros a b E. apply tw_cost; assumption.
  - apply orel_cost; [exact T|]. intros _. eapply orel_map; [|apply k_weights_rel; exact (proj1 (proj2 (proj2 (proj2 (proj2 (proj2 T))))) i)]. intros a b E. apply tw_cost; assumption.
  - apply orel_cost; [exact T|]. intros _. cbn [orel]. apply tw_cost; [exact T|]. apply k_weight_rel. exact (proj1 (proj2 (proj2 (proj2 (proj2 (proj2 T))))) i).
  - unfold construct. destruct k as [|p| |p].
    + cbn [of_opt orel]. apply tw_ctl; [exact T|reflexivity].
    + apply initController_rel. apply tw_ctl; [exact T|reflexivity].
    + cbn [of_opt orel]. apply tw_ctl; [exact T|reflexivity].
    + cbv zeta. apply initController_rel. apply tw_ctl; [exact T|].
      pose proof (proj1 (bp_twin _ _) (proj1 T p)) as [_ [_ [_ [S4 [_ [_ [_ [S8 _]]]]]]]]. rewrite <- S4, <- S8. reflexivity.
  - apply initController_rel. exact T.
  - apply orel_cost; [exact T|]. intros _. unfold addCost. rewrite <- M2. destruct (m_ps (ctl w)) as [p|] eqn:Ep; [|exact I].
    pose proof (k_init_rel j _ _ _ _ (proj1 T p) (proj1 (proj2 (proj2 (proj2 (proj2 (proj2 T))))) i)) as R.
    destruct (initializeCost j (wps w p) (wcost w i)) as [c|e c|], (initializeCost j (wps v p) (wcost v i)) as [d|e' d|]; cbn [orel] in R |- *; try exact R.
    + cbv zeta. apply tw_ctl; [apply tw_cost; assumption|]. ctls.
    + destruct R as [-> R]. split; [reflexivity|]. apply tw_cost; assumption.
  - apply orel_con; [exact T|]. intros _. unfold addConstraint. rewrite <- M2. destruct (m_ps (ctl w)) as [p|] eqn:Ep; [|exact I].
    pose proof (c_init_rel j _ _ _ _ (proj1 T p) (proj1 (proj2 (proj2 T)) i)) as R.
    destruct (initializeConstraint j (wps w p) (wcon w i)) as [c|e c|], (initializeConstraint j (wps v p) (wcon v i)) as [d|e' d|]; cbn [orel] in R; try contradiction R.
    + apply byType_rel. apply tw_con; assumption.
    + destruct (of_opt _); exact I.
    + destruct R as [-> R]. split; [reflexivity|]. apply tw_con; assumption.
    + exact I.
    + exact I.
    + exact I.
    + exact I.
  - apply orel_cost; [exact T|]. intros _. unfold removeCost. rewrite <- M9. destruct (erase_first _ _); [|exact T]. apply tw_ctl; [exact T|ctls].
  - apply orel_con; [exact T|]. intros _. pose proof (proj1 (bc_twin _ _) (proj1 (proj2 (proj2 T)) i)) as [K [Q1 _]].
    unfold removeConstraint, constraintType. rewrite <- M5, <- M6, <- M7, <- M8, <- K, <- Q1.
    destruct (erase_first i (spC (ctl w))); [|exact T].
    destruct (ck (wcon w i)); [destruct (isIneq (wcon w i))|destruct (isIneq (wcon w i))|destruct (isIneq (wcon w i))| |];
      match goal with |- context [erase_first i ?l] => destruct (erase_first i l) end; cbn [obind of_opt orel]; try exact I; (apply tw_ctl; [exact T|ctls]).
  - cbn [orel]. apply tw_ctl; [exact T|ctls].
  - unfold clearConstraints. rewrite <- M2. destruct (m_ps (ctl w)) as [p|] eqn:Ep; [|exact I].
    pose proof (proj1 (bp_twin _ _) (proj1 T p)) as [_ [_ [_ [S4 [_ [_ [S7 _]]]]]]].
    unfold clearConstraintMatrices.
    assert (X : optSize (set_lists (ctl v) 0 0 [] [] [] []) (wps v p) = optSize (set_lists (ctl w) 0 0 [] [] [] []) (wps w p)).
    { unfold optSize. cbn. rewrite <- M1, <- S4, <- S7. reflexivity. }
    rewrite X. destruct (fits_int _); [|exact I]. cbn [obind of_opt orel]. apply tw_ctl; [exact T|ctls].
  - cbn [orel]. apply tw_ctl; [exact T|ctls].
  - cbn [orel]. apply tw_ctl; [exact T|]. unfold resetX0Cost. rewrite <- M1. destruct (m_is (ctl w)) eqn:Ei; ctls.
  - cbn [orel]. apply tw_ctl; [exact T|]. unfold resetX0Bounds. rewrite <- M1. destruct (m_is (ctl w)) eqn:Ei; ctls.
Qed.
(** *** Preview systems *)
Definition updated (s : psys) : psys :=
  PS true (nrUStep s) (nrXStep s) (xDim s) (uDim s) (fullXDim s) (fullUDim s) (x0 s) (psA s) (psB s) (psd s) mempty mempty qempty.
Lemma updated_eq s t : bp s = bp t -> updated s = updated t.
Proof.
  intro H. apply bp_twin in H. destruct H as [A1 [A2 [A3 [A4 [A5 [A6 [A7 [A8 [A9 [A10 A11]]]]]]]]]]. unfold updated.
  rewrite A2, A3, A4, A5, A6, A7, A8, A9, A10, A11. reflexivity.
Qed.
Lemma f_upd_bp F s s' : f_updateSystem F s = Some s' -> bp s' = updated s.
Proof. unfold f_updateSystem. cbv zeta. intro U. peel U. injection U as <-. reflexivity. Qed.
Lemma upd_bp s s' : updateSystem s = Some s' -> bp s' = updated s.
Proof. unfold updateSystem. cbv zeta. intro U. peel U. injection U as <-. reflexivity. Qed.
Lemma ensure_rel F s t s' t' : bp s = bp t -> f_ensureUpdated F s = Some s' -> ensureUpdated t = Some t' -> bp s' = bp t'.
Proof.
  intros H U V. unfold f_ensureUpdated in U. unfold ensureUpdated in V. rewrite <- (f_equal isUpdated H : isUpdated s = isUpdated t) in V.
  destruct (isUpdated s); [congruence|]. rewrite (f_upd_bp _ _ _ U), (upd_bp _ _ V). apply updated_eq. exact H.
Qed.
Lemma system_rel s t A B d x k : bp s = bp t -> orel (fun a b => bp a = bp b) (system s A B d x k) (system t A B d x k).
Proof.
  intro H. unfold system. repeat match goal with |- context [if ?b then _ else _] => destruct b end; try (split; [reflexivity|exact H]); try exact I.
  destruct (setBlock _ _ _ _ _ _); cbn [obind of_opt orel]; [reflexivity|exact I].
Qed.
Lemma ps_rel F s t o : bp s = bp t -> orel (fun a b => bp a = bp b) (f_ps_step F s o) (ps_step t o).
Proof.
  intro H. pose proof (proj1 (bp_twin _ _) H) as [A1 [A2 [A3 [A4 [A5 [A6 [A7 [A8 [A9 [A10 A11]]]]]]]]]].
  destruct o; cbn [f_ps_step ps_step].
  - apply system_rel. exact H.
  - cbn [orel]. apply bp_twin. unfold twin_systems. cbn. repeat (split; [assumption || reflexivity|]). assumption.
  - cbn [orel]. apply bp_twin. unfold twin_systems. cbn. repeat (split; [assumption || reflexivity|]). reflexivity.
  - cbn [orel]. apply bp_twin. unfold twin_systems. cbn. repeat (split; [assumption || reflexivity|]). assumption.
  - destruct (f_updateSystem F s) as [s'|] eqn:U; [|exact I]. destruct (updateSystem t) as [t'|] eqn:V; [|exact I]. cbn [of_opt orel].
    rewrite (f_upd_bp _ _ _ U), (upd_bp _ _ V). apply updated_eq. exact H.
  - destruct (if isUpdated s then Some s else f_updateSystem F s) as [s'|] eqn:U; [|exact I]. destruct (ensureUpdated t) as [t'|] eqn:V; [|exact I]. cbn [of_opt orel].
    exact (ensure_rel F s t s' t' H U V).
Qed.

(** *** solve *)
Lemma updateNr_rel w v a b : (forall i, bc (wcon w i) = bc (wcon v i)) -> bm a = bm b ->
  forall a' b', updateNr (wcon w) a = Some a' -> updateNr (wcon v) b = Some b' -> bm a' = bm b'.
Proof.
  intros C M a' b' U V. apply bm_twin in M. destruct M as [M1 [M2 [M3 [M4 [M5 [M6 [M7 [M8 [M9 [M10 M11]]]]]]]]]].
  assert (X : forall l, total_rows (wcon v) l = total_rows (wcon w) l).
  { intro l. induction l as [|i l IH]; [reflexivity|]. cbn. fold (total_rows (wcon v) l) (total_rows (wcon w) l). rewrite IH.
    f_equal. symmetry. apply (proj1 (bc_twin _ _) (C i)). }
  unfold updateNr in *. rewrite <- M6, <- M7, !X in V. destruct (fits_int _ && fits_int _); [|discriminate U]. cbn [obind] in *. injection U as <-. injection V as <-. ctls.
Qed.
Lemma build_rel F reg e w v w1 v1 : tw w v -> f_build F reg e w = Some w1 -> build e v = Some v1 -> tw w1 v1.
Proof.
  intros T U V. ctl_of T. unfold f_build, f_lmpc_updateSystem in U. unfold build, lmpc_updateSystem in V. rewrite <- M2 in V.
  destruct (m_ps (ctl w)) as [p|] eqn:Ep; [|discriminate U]. cbv zeta in U, V.
  destruct (f_ensureUpdated F (wps w p)) as [s|] eqn:Us; [|discriminate U]. destruct (ensureUpdated (wps v p)) as [t|] eqn:Vs; [|discriminate V]. cbn [obind] in U, V.
  destruct (updateNr (wcon w) _) as [a|] eqn:Ua; [|discriminate U]. destruct (updateNr (wcon v) _) as [b|] eqn:Vb; [|discriminate V]. cbn [obind] in U, V.
  destruct (f_update_cons F s _ _) as [wc|] eqn:Uc; [|discriminate U]. destruct (update_cons t _ _) as [vc|] eqn:Vc; [|discriminate V]. cbn [obind] in U, V.
  destruct (f_update_costs F s _ _) as [wk|] eqn:Uk; [|discriminate U]. destruct (update_costs t _ _) as [vk|] eqn:Vk; [|discriminate V]. cbn [obind] in U, V.
  destruct T as [A [B [C [D0 [E [G [H I0]]]]]]].
  pose proof (ensure_rel F _ _ _ _ (A p) Us Vs) as ST.
  assert (AB : bm a = bm b). { refine (updateNr_rel w v _ _ C _ _ _ Ua Vb). apply bm_twin. unfold twin_controllers. cbn [m_is m_ps nrEq nrIneq spC spEq spIneq spB spCost m_qp solveTime sabTime set_qpm]. rewrite Ep. repeat (split; [assumption || reflexivity|]). assumption. }
  pose proof (proj1 (bm_twin _ _) AB) as [N1 [N2 [N3 [N4 [N5 [N6 [N7 [N8 [N9 [N10 N11]]]]]]]]]].
  assert (CC : forall i, bc (wc i) = bc (vc i)).
  { unfold f_update_cons in Uc. unfold update_cons in Vc. cbn [spC set_qpm updateConstraintMatrixSize] in Uc, Vc. rewrite <- N5 in Vc.
    refine (for_list_rel (fun x y => forall i, bc (x i) = bc (y i)) _ _ _ _ _ _ _ _ C Uc Vc).
    intros x f g f' g' FG E1 E2. destruct (f_c_update F s (f x)) as [c1|] eqn:X1; [|discriminate E1]. destruct (c_update t (g x)) as [c2|] eqn:X2; [|discriminate E2].
    cbn [obind] in E1, E2. injection E1 as <-. injection E2 as <-. apply (upd_rel bc); [exact FG|]. exact (c_update_rel F s t _ _ _ _ ST (FG x) X1 X2). }
  assert (KK : forall i, bk (wk i) = bk (vk i)).
  { unfold f_update_costs in Uk. unfold update_costs in Vk. cbn [spCost set_qpm updateConstraintMatrixSize] in Uk, Vk. rewrite <- N9 in Vk.
    refine (for_list_rel (fun x y => forall i, bk (x i) = bk (y i)) _ _ _ _ _ _ _ _ G Uk Vk).
    intros x f g f' g' FG E1 E2. destruct (f_k_update F s (f x)) as [c1|] eqn:X1; [|discriminate E1]. destruct (k_update t (g x)) as [c2|] eqn:X2; [|discriminate E2].
    cbn [obind] in E1, E2. injection E1 as <-. injection E2 as <-. apply (upd_rel bk); [exact FG|]. exact (k_update_rel F s t _ _ _ _ (FG x) X1 X2). }
  cbn [ctl m_ps m_is set_qpm updateConstraintMatrixSize] in U, V.
  destruct (m_ps a); [|discriminate U]. destruct (m_ps b); [|discriminate V].
  match type of U with obind ?x _ = _ => destruct x as [q|]; [|discriminate U] end. match type of V with obind ?x _ = _ => destruct x as [q'|]; [|discriminate V] end.
  cbn [obind] in U, V. injection U as <-. injection V as <-.
  unfold tw. cbn [wps ncon wcon hcon ncost wcost hcost ctl set_ctl]. split; [apply (upd_rel bp); assumption|]. repeat (split; [assumption|]). exact AB.
Qed.
Lemma checkDelete_rel w v : tw w v -> tw (checkDelete w) (checkDelete v).
Proof.
  intro T. ctl_of T. pose proof T as [_ [_ [_ [D0 [_ [_ [H _]]]]]]].
  unfold checkDelete. cbv zeta. rewrite <- M5, <- M6, <- M7, <- M8, <- M9.
  assert (X : forall le li lb (l : list nat) i, use_con (hcon v) l le li lb i = use_con (hcon w) l le li lb i) by (intros; unfold use_con; rewrite D0; reflexivity).
  rewrite (check_same (fun l => use_con (hcon v) l (spEq (ctl w)) (spIneq (ctl w)) (spB (ctl w))) (fun l => use_con (hcon w) l (spEq (ctl w)) (spIneq (ctl w)) (spB (ctl w)))) by (intros; apply X).
  set (lc := check _ 2 [] (spC (ctl w))).
  rewrite (check_same (fun l => use_con (hcon v) lc l (spIneq (ctl w)) (spB (ctl w))) (fun l => use_con (hcon w) lc l (spIneq (ctl w)) (spB (ctl w)))) by (intros; apply X).
  set (le := check _ 2 [] (spEq (ctl w))).
  rewrite (check_same (fun l => use_con (hcon v) lc le l (spB (ctl w))) (fun l => use_con (hcon w) lc le l (spB (ctl w)))) by (intros; apply X).
  set (li := check _ 2 [] (spIneq (ctl w))).
  rewrite (check_same (fun l => use_con (hcon v) lc le li l) (fun l => use_con (hcon w) lc le li l)) by (intros; apply X).
  rewrite (check_same (fun l i => hcost v i + cnt i l) (fun l i => hcost w i + cnt i l)) by (intros; rewrite H; reflexivity).
  apply tw_ctl; [exact T|]. ctls.
Qed.
Lemma f_results_tw F w w' : f_updateResults F w = Some w' -> tw w' w.
Proof.
  unfold f_updateResults. intro U. destruct (m_ps (ctl w)) as [p|]; [|discriminate U]. cbv zeta in U.
  destruct (m_is (ctl w)); peel U; injection U as <-; unfold tw; cbn; repeat (split; [reflexivity|]); reflexivity.
Qed.
Lemma results_tw w w' : updateResults w = Some w' -> tw w' w.
Proof.
  unfold updateResults. intro U. destruct (m_ps (ctl w)) as [p|]; [|discriminate U]. cbv zeta in U.
  destruct (m_is (ctl w)); peel U; injection U as <-; unfold tw; cbn; repeat (split; [reflexivity|]); reflexivity.
Qed.
Lemma tw_sym w v : tw w v -> tw v w.
Proof. intros [A [B [C [D0 [E [G [H I]]]]]]]. unfold tw. repeat (split; [symmetry; auto|]). auto. Qed.
Lemma tw_trans a b c : tw a b -> tw b c -> tw a c.
Proof.
  intros [A [B [C [D0 [E [G [H I]]]]]]] [A' [B' [C' [D' [E' [G' [H' I']]]]]]].
  repeat split; try congruence; intro; congruence.
Qed.
Lemma solve_rel F reg e w v bw bv w' v' : tw w v -> f_solve F reg e w = Some (bw, w') -> solve e v = Some (bv, v') -> tw w' v'.
Proof.
  intros T U V. unfold f_solve in U. unfold solve in V.
  destruct (f_build F reg e w) as [w1|] eqn:U1; [|discriminate U]. destruct (build e v) as [v1|] eqn:V1; [|discriminate V]. cbn [obind] in U, V. cbv zeta in U, V.
  pose proof (build_rel F reg e w v w1 v1 T U1 V1) as T1.
  destruct (s_qp e (vsize (qc (m_qp (ctl w1)))) (nrEq (ctl w1)) (nrIneq (ctl w1)) (m_qp (ctl w1))) as [ow rw].
  destruct (s_qp e (vsize (qc (m_qp (ctl v1)))) (nrEq (ctl v1)) (nrIneq (ctl v1)) (m_qp (ctl v1))) as [ov rv].
  match type of U with obind (if ow then f_updateResults F ?x else Some ?x) _ = _ => set (w3 := x) in * end.
  match type of V with obind (if ov then updateResults ?x else Some ?x) _ = _ => set (v3 := x) in * end.
  assert (T3 : tw w3 v3).
  { apply checkDelete_rel. apply tw_ctl; [exact T1|]. ctl_of T1. ctls. }
  destruct (if ow then f_updateResults F w3 else Some w3) as [w4|] eqn:U4; [|discriminate U]. destruct (if ov then updateResults v3 else Some v3) as [v4|] eqn:V4; [|discriminate V].
  cbn [obind] in U, V.
  assert (T4 : tw w4 v4).
  { apply (tw_trans _ w3); [destruct ow; [exact (f_results_tw F _ _ U4)|injection U4 as <-; apply tw_sym, tw_sym; clear; unfold tw; repeat (split; [reflexivity|]); reflexivity]|].
    apply (tw_trans _ v3); [exact T3|]. apply tw_sym. destruct ov; [exact (results_tw _ _ V4)|injection V4 as <-; clear; unfold tw; repeat (split; [reflexivity|]); reflexivity]. }
  injection U as _ <-. injection V as _ <-. apply tw_ctl; [exact T4|]. ctl_of T4. ctls.
Qed.
(** *** One call, and all *)
Lemma step_rel F reg w v o : tw w v -> orel tw (f_step F reg w o) (step v o).
Proof.
  intro T. destruct (op_cases o) as [PO|[[p [po ->]]|[e ->]]].
  - rewrite (plain_f_step F reg w o PO). apply plain_rel; assumption.
  - cbn [f_step step]. eapply orel_map; [|apply ps_rel; exact (proj1 T p)]. intros a b E. apply tw_ps; assumption.
  - cbn [f_step step]. destruct (f_solve F reg e w) as [[bw w']|] eqn:U; [|exact I]. destruct (solve e v) as [[bv v']|] eqn:V; [|exact I]. cbn [orel].
    exact (solve_rel F reg e w v bw bv w' v' T U V).
Qed.
Lemma run_rel F reg h : forall w v w' v', tw w v -> f_run F reg w h = Some w' -> run v h = Some v' -> tw w' v'.
Proof.
  induction h as [|o h IH]; intros w v w' v' T U V; cbn [f_run run] in *; [congruence|].
  pose proof (step_rel F reg w v o T) as S. destruct (f_step F reg w o) as [a|e a|], (step v o) as [b|e' b|]; cbn [orel] in S; try discriminate U; try discriminate V; try contradiction S.
  - exact (IH a b w' v' S U V).
  - exact (IH a b w' v' (proj2 S) U V).
Qed.
Lemma tw_refl w : tw w w.
Proof. unfold tw; repeat (split; [reflexivity|]); reflexivity. Qed.
(** *** The protocol *)
Lemma legal_rel n m N w v o : tw w v -> legal n m N w o -> legal n m N v o.
Proof.
  intros T L. ctl_of T. pose proof T as [A [_ [C [_ [_ [G _]]]]]].
  assert (S : forall p, is_set w p -> is_set v p) by (intros p; unfold is_set; rewrite (f_equal nrUStep (A p) : nrUStep (wps w p) = nrUStep (wps v p)); auto).
  destruct o; cbn [legal] in *; try exact L.
  - destruct o; try exact L; intuition.
  - destruct L as [L|L]; [left|right; rewrite <- M5; exact L].
    pose proof (proj1 (bc_twin _ _) (C i)) as [K [_ [_ [_ [_ [T5 [T6 [T7 [T8 [T9 _]]]]]]]]]].
    unfold con_nonempty in *. rewrite <- K, <- T5, <- T6, <- T7, <- T8, <- T9. exact L.
  - destruct L as [L|L]; [left|right; rewrite <- M9; exact L].
    pose proof (proj1 (bk_twin _ _) (G i)) as [K [_ [T2 [T3 [T4 _]]]]].
    unfold cost_nonempty in *. rewrite <- K, <- T2, <- T3, <- T4. exact L.
  - destruct k; auto.
  - auto.
  - unfold has_system in *. rewrite <- M2. exact L.
  - pose proof (proj1 (bc_twin _ _) (C i)) as [K [Q1 [_ [_ [_ [T5 [T6 [T7 [T8 [T9 [T10 [T11 _]]]]]]]]]]]].
    unfold has_system, constraintType, row_count in *. rewrite <- M2, <- M3, <- M4, <- M8, <- K, <- Q1, <- T5, <- T6, <- T8, <- T10, <- T11.
    destruct L as [L1 L2]. split; [exact L1|].
    destruct (m_ps (ctl w)) as [p|]; [|exact L2].
    pose proof (proj1 (bp_twin _ _) (A p)) as [S1 [S2 [S3 [S4 [S5 [S6 [S7 _]]]]]]]. rewrite <- S2, <- S3, <- S4, <- S5, <- S7. exact L2.
  - unfold has_system in *. rewrite <- M2. exact L.
  - unfold has_system in *. rewrite <- M1, <- M2. exact L.
Qed.
Lemma honest_rel w v o : tw w v -> honest_op w o -> honest_op v o.
Proof.
  intros T H. destruct o; try exact H. cbn [honest_op] in *.
  destruct o; try exact H.
  all: pose proof (proj1 (bp_twin _ _) (proj1 T p)) as [S1 [S2 [S3 [S4 [S5 _]]]]]; rewrite <- ?S1, <- ?S4, <- ?S5; exact H.
Qed.
Lemma callable_rel w v o : tw w v -> callable_op w o -> callable_op v o.
Proof.
  intros [_ [_ [_ [D0 [_ [_ [H _]]]]]]] X. destruct o; cbn [callable_op] in *; try exact X; rewrite <- ?D0, <- ?H; exact X.
Qed.
Lemma stale_rel w v b o : tw w v -> stale_op w b o = stale_op v b o.
Proof. intros T. ctl_of T. unfold stale_op. rewrite M8. reflexivity. Qed.
(** conditions on each call, without rounding *)
Fixpoint e_call (P : world -> op -> Prop) (w : world) (h : list op) : Prop :=
  match h with
  | [] => True
  | o :: t => P w o /\ match step w o with Ok w' | Throw _ w' => e_call P w' t | UB => True end
  end.
Lemma e_follows n m N : forall h w, follows_protocol n m N w h <-> e_call (legal n m N) w h.
Proof. induction h as [|o h IH]; intro w; cbn; [tauto|]. destruct (step w o); rewrite ?IH; tauto. Qed.
Lemma e_honest : forall h w, honest w h <-> e_call honest_op w h.
Proof. induction h as [|o h IH]; intro w; cbn; [tauto|]. destruct (step w o); rewrite ?IH; tauto. Qed.
Lemma e_callable : forall h w, callable w h <-> e_call callable_op w h.
Proof. induction h as [|o h IH]; intro w; cbn; [tauto|]. destruct (step w o); rewrite ?IH; tauto. Qed.
Lemma call_rel F reg (P : world -> op -> Prop) : (forall w v o, tw w v -> P w o -> P v o) ->
  forall h w v, tw w v -> (exists w', f_run F reg w h = Some w') -> each_call F reg P w h -> e_call P v h.
Proof.
  intro X. induction h as [|o h IH]; intros w v T [w' U] H; cbn [f_run each_call e_call] in *; [exact I|].
  destruct H as [H1 H2]. split; [exact (X w v o T H1)|]. pose proof (step_rel F reg w v o T) as S.
  destruct (f_step F reg w o) as [a|e a|], (step v o) as [b|e' b|]; cbn [orel] in S; try discriminate U; try contradiction S; try exact I.
  - apply (IH a b S); eauto.
  - apply (IH a b (proj2 S)); eauto.
Qed.
Lemma call_rel' F reg (P : world -> op -> Prop) : (forall w v o, tw w v -> P w o -> P v o) ->
  forall h w v, tw w v -> (exists v', run v h = Some v') -> e_call P v h -> each_call F reg P w h.
Proof.
  intro X. induction h as [|o h IH]; intros w v T [w' U] H; cbn [run each_call e_call] in *; [exact I|].
  destruct H as [H1 H2]. split; [exact (X v w o (tw_sym _ _ T) H1)|]. pose proof (step_rel F reg w v o T) as S.
  destruct (f_step F reg w o) as [a|e a|], (step v o) as [b|e' b|]; cbn [orel] in S; try discriminate U; try contradiction S; try exact I.
  - apply (IH a b S); eauto.
  - apply (IH a b (proj2 S)); eauto.
Qed.
Lemma f_stale_rel F reg : forall h w v b, tw w v -> (exists w', f_run F reg w h = Some w') -> (exists v', run v h = Some v') -> f_stale F reg w b h = stale v b h.
Proof.
  induction h as [|o h IH]; intros w v b T [w' U] [v' V]; cbn [f_run run f_stale stale] in *; [reflexivity|].
  rewrite (stale_rel w v b o T). pose proof (step_rel F reg w v o T) as S.
  destruct (f_step F reg w o) as [a|e a|], (step v o) as [c|e' c|]; cbn [orel] in S; try discriminate U; try discriminate V; try contradiction S.
  - apply IH; eauto.
  - apply IH; eauto. exact (proj2 S).
Qed.
