(** SpanData.v -- the data held by a constraint and by a cost, and what autoSpan makes of them. *)
From Verif Require Import Base Eigen Spec Preview SpecApi PreviewProofs AutoSpan AutoSpanProofs Constraints ConstraintProofs
  SpecConstraints ConstraintMeaning Costs SpecCosts CostProofs CostMeaning Properties_Costs Controller Registry SpecController Assembly
  Results SpecProtocol Protocol SpecEndToEnd.

(** ** What an object holds *)
Definition c_given (c : constr) : con_data :=
  match ck c with
  | KTraj => DTraj (cE c) (cf c) (isIneq c)
  | KCtrl => if fullSizeEntry c then DCtrl (cA c) (cb c) (isIneq c) else DCtrl (cG c) (cf c) (isIneq c)
  | KMixed => DMixed (cE c) (cG c) (cf c) (isIneq c)
  | KTrajB => DTrajB (clower c) (cupper c)
  | KCtrlB => if fullSizeEntry c then DCtrlB (clb c) (cub c) else DCtrlB (clower c) (cupper c)
  end.
Definition lines_fresh (c : constr) : Prop :=
  ck c = KTrajB -> isIneq c = true /\ lowerLines c = finite_lower_lines (clower c) /\ upperLines c = finite_upper_lines (cupper c).
Definition k_given (c : cost) : cost_data :=
  match kk c with
  | TrajectoryCost => DTrajC (kM c) (kp c)
  | TargetCost => DTargetC (kM c) (kp c)
  | ControlCost => DCtrlC (kN c) (kp c)
  | MixedCost => DMixedC (kM c) (kN c) (kp c)
  end.

(** ** Alike is an equivalence *)
Lemma con_alike_refl d : con_alike d d.
Proof. destruct d; cbn; auto 6 using meq_refl, veq_refl. Qed.
Lemma con_alike_sym d e : con_alike d e -> con_alike e d.
Proof. destruct d, e; cbn; try tauto; intuition auto using meq_sym, veq_sym. Qed.
Lemma con_alike_trans a b c : con_alike a b -> con_alike b c -> con_alike a c.
Proof. destruct a, b; cbn; try tauto; destruct c; cbn; try tauto; intuition (eauto using meq_trans, veq_trans; congruence). Qed.
Lemma cost_alike_refl d : cost_alike d d.
Proof. destruct d; cbn; auto 6 using meq_refl, veq_refl. Qed.
Lemma cost_alike_sym d e : cost_alike d e -> cost_alike e d.
Proof. destruct d, e; cbn; try tauto; intuition auto using meq_sym, veq_sym. Qed.
Lemma cost_alike_trans a b c : cost_alike a b -> cost_alike b c -> cost_alike a c.
Proof. destruct a, b; cbn; try tauto; destruct c; cbn; try tauto; intuition (eauto using meq_trans, veq_trans; congruence). Qed.

(** ** Stretching *)
Lemma stretch_m_rows n a M M' : stretch_m n a M = Some M' -> rows M' = n.
Proof.
  unfold stretch_m. destruct (Nat.eqb_spec (rows M) n) as [E|Ne]; [intro H; injection H as <-; exact E|].
  destruct (Nat.eqb_spec (n mod rows M) 0) as [E|]; [|discriminate]. intro H. injection H as <-. cbn.
  destruct (Nat.eq_dec (rows M) 0) as [Z|Z]; [rewrite Z in *; cbn in E; congruence|].
  pose proof (Nat.div_mod n (rows M) Z). nia.
Qed.
Lemma stretch_v_size {T} n (v v' : vec T) : stretch_v n v = Some v' -> vsize v' = n.
Proof.
  unfold stretch_v. destruct (Nat.eqb_spec (vsize v) n) as [E|Ne]; [intro H; injection H as <-; exact E|].
  destruct (Nat.eqb_spec (n mod vsize v) 0) as [E|]; [|discriminate]. intro H. injection H as <-. reflexivity.
Qed.
Lemma stretch_m_same n a M : rows M = n -> stretch_m n a M = Some M.
Proof. intros <-. unfold stretch_m. rewrite Nat.eqb_refl. reflexivity. Qed.
Lemma stretch_v_same {T} n (v : vec T) : vsize v = n -> stretch_v n v = Some v.
Proof. intros <-. unfold stretch_v. rewrite Nat.eqb_refl. reflexivity. Qed.
Lemma stretch_m_cong n a M M' : meq M M' ->
  match stretch_m n a M, stretch_m n a M' with Some P, Some P' => meq P P' | None, None => True | _, _ => False end.
Proof.
  intros H. pose proof H as [R [C E]]. unfold stretch_m. rewrite R. destruct (Nat.eqb_spec (rows M') n); [exact H|].
  destruct (Nat.eqb_spec (n mod rows M') 0); [|exact I].
  split; [cbn; congruence|]. split; [cbn; congruence|]. cbn. intros i j Hi Hj. rewrite R, C in *.
  destruct (Nat.eqb _ _); [|reflexivity]. apply E; apply Nat.mod_upper_bound; nia.
Qed.
Lemma stretch_v_cong {T} n (v v' : vec T) : veq v v' ->
  match stretch_v n v, stretch_v n v' with Some P, Some P' => veq P P' | None, None => True | _, _ => False end.
Proof.
  intros H. pose proof H as [R E]. unfold stretch_v. rewrite R. destruct (Nat.eqb_spec (vsize v') n) as [|Ne]; [exact H|].
  destruct (Nat.eqb_spec (n mod vsize v') 0) as [Em|]; [|exact I].
  assert (vsize v' <> 0) by (intro Z; rewrite Z in *; cbn in Em; congruence).
  split; [reflexivity|]. cbn. intros i Hi. rewrite R in *. apply E. apply Nat.mod_upper_bound. assumption.
Qed.
Lemma spanMatrix_stretch M n a : rows M <> 0 -> 
  match stretch_m n a M with
  | Some P => exists Q, spanMatrix M (Z.of_nat n) (Z.of_nat a) = Ok Q /\ meq Q P
  | None => spanMatrix M (Z.of_nat n) (Z.of_nat a) = Throw DomainError M
  end.
Proof.
  intro R. unfold stretch_m. destruct (Nat.eqb_spec (rows M) n) as [<-|Ne].
  { exists M. split; [apply spanMatrix_same|apply meq_refl]. }
  destruct (Nat.eqb_spec (n mod rows M) 0) as [E|E].
  - apply Nat.mod_divide in E as [q ->]; [|exact R]. rewrite Nat.div_mul by exact R.
    assert (Hq : q <> 1) by (intros ->; apply Ne; lia).
    destruct (spanMatrix_ok M q a R Hq) as [Q [EQ [RQ [CQ HQ]]]]. exists Q. split; [exact EQ|].
    split; [exact RQ|]. split; [exact CQ|]. cbn. intros i j Hi Hj.
    rewrite RQ in Hi. rewrite CQ in Hj. assert (C : cols M <> 0) by nia.
    rewrite (Nat.div_mod i (rows M) R) at 1. rewrite (Nat.div_mod j (cols M) C) at 1.
    rewrite (Nat.mul_comm (rows M)), (Nat.mul_comm (cols M)). apply HQ.
    + apply Nat.div_lt_upper_bound; [exact R|]. nia.
    + apply Nat.div_lt_upper_bound; [exact C|]. nia.
    + apply Nat.mod_upper_bound. exact R.
    + apply Nat.mod_upper_bound. exact C.
  - apply spanMatrix_throw; [exact R| |].
    + intro H. apply Nat2Z.inj in H. congruence.
    + intros [z Hz]. apply E. apply Nat.mod_divide; [exact R|]. exists (Z.to_nat z).
      apply Nat2Z.inj. rewrite Nat2Z.inj_mul. assert (0 <= z)%Z by nia. rewrite Z2Nat.id by assumption. lia.
Qed.
Lemma spanVector_stretch {T} jk (v : vec T) n : vsize v <> 0 -> vsize v <= n ->
  match stretch_v n v with
  | Some P => exists Q, spanVector jk v (Z.of_nat n) = Ok Q /\ veq Q P
  | None => spanVector jk v (Z.of_nat n) = Throw DomainError v
  end.
Proof.
  intros R L. unfold stretch_v. destruct (Nat.eqb_spec (vsize v) n) as [<-|Ne].
  { exists v. split; [apply spanVector_same|apply veq_refl]. }
  destruct (Nat.eqb_spec (n mod vsize v) 0) as [E|E].
  - apply Nat.mod_divide in E as [q ->]; [|exact R].
    destruct (spanVector_mult jk v q) as [Q [EQ [RQ HQ]]]; [nia|]. exists Q. split; [exact EQ|].
    split; [exact RQ|]. cbn. intros i Hi. rewrite RQ in Hi.
    rewrite (Nat.div_mod i (vsize v) R) at 1. rewrite (Nat.mul_comm (vsize v)). apply HQ.
    + apply Nat.div_lt_upper_bound; [exact R|]. nia.
    + apply Nat.mod_upper_bound. exact R.
  - apply spanVector_throw; [exact R| |].
    + intro H. apply Nat2Z.inj in H. congruence.
    + intros [z Hz]. apply E. apply Nat.mod_divide; [exact R|]. exists (Z.to_nat z).
      apply Nat2Z.inj. rewrite Nat2Z.inj_mul. assert (0 <= z)%Z by nia. rewrite Z2Nat.id by assumption. lia.
Qed.

(** ** Stretched data *)
Ltac stretch1 :=
  match goal with
  | H : meq ?M ?M' |- context [stretch_m ?n ?a ?M] =>
      let K := fresh "K" in pose proof (stretch_m_cong n a M M' H) as K;
      destruct (stretch_m n a M) eqn:?, (stretch_m n a M') eqn:?; try (exfalso; exact K)
  | H : veq ?M ?M' |- context [stretch_v ?n ?M] =>
      let K := fresh "K" in pose proof (stretch_v_cong n M M' H) as K;
      destruct (stretch_v n M) eqn:?, (stretch_v n M') eqn:?; try (exfalso; exact K)
  end.
Lemma spanned_con_cong d e : con_alike d e -> con_alike (spanned_con d) (spanned_con e).
Proof.
  destruct d as [E f q|E f q|E G f q|lo up|lo up], e as [E' f' q'|E' f' q'|E' G' f' q'|lo' up'|lo' up']; cbn [con_alike]; try tauto; intro H;
    repeat match type of H with _ /\ _ => let A := fresh "A" in destruct H as [A H] end; subst; cbn [spanned_con];
    repeat match goal with A : meq ?a ?b |- _ => progress rewrite <- (proj1 A) | A : veq ?a ?b |- _ => progress rewrite <- (proj1 A) end;
    repeat stretch1; cbn; auto.
Qed.
Lemma spanned_cost_cong d e : cost_alike d e -> cost_alike (spanned_cost d) (spanned_cost e).
Proof.
  destruct d as [E f|E f|E f|E G f], e as [E' f'|E' f'|E' f'|E' G' f']; cbn [cost_alike]; try tauto; intro H;
    repeat match type of H with _ /\ _ => let A := fresh "A" in destruct H as [A H] end; subst; cbn [spanned_cost];
    repeat match goal with A : meq ?a ?b |- _ => progress rewrite <- (proj1 A) | A : veq ?a ?b |- _ => progress rewrite <- (proj1 A) end;
    repeat stretch1; cbn; auto.
Qed.
Ltac restretch :=
  repeat match goal with
  | H : stretch_m ?n ?a ?M = Some ?P |- _ => let R := fresh "R" in pose proof (stretch_m_rows n a M P H) as R; revert H
  | H : stretch_v ?n ?M = Some ?P |- _ => let R := fresh "R" in pose proof (stretch_v_size n M P H) as R; revert H
  end; intros.
Lemma spanned_con_twice d : spanned_con (spanned_con d) = spanned_con d.
Proof.
  destruct d as [E f q|E f q|E G f q|lo up|lo up]; cbn [spanned_con]; cbv zeta;
    match goal with |- context [stretch_m ?k _ _] => set (n := k) | |- context [stretch_v ?k _] => set (n := k) end.
  - destruct (stretch_m n 0 E) eqn:S1, (stretch_v n f) eqn:S2; cbn [spanned_con]; fold n; try (rewrite S1, ?S2; reflexivity).
    restretch. rewrite R, R0, Nat.max_id, stretch_m_same, stretch_v_same by assumption. reflexivity.
  - destruct (stretch_m n 0 E) eqn:S1, (stretch_v n f) eqn:S2; cbn [spanned_con]; fold n; try (rewrite S1, ?S2; reflexivity).
    restretch. rewrite R, R0, Nat.max_id, stretch_m_same, stretch_v_same by assumption. reflexivity.
  - destruct (stretch_m n 1 E) eqn:S1; [destruct (stretch_m n 0 G) eqn:S2; [destruct (stretch_v n f) eqn:S3|]|];
      cbn [spanned_con]; fold n; cbv zeta; try (rewrite S1, ?S2, ?S3; reflexivity).
    + pose proof (stretch_m_rows _ _ _ _ S1). pose proof (stretch_m_rows _ _ _ _ S2). pose proof (stretch_v_size _ _ _ S3).
      replace (Nat.max (vsize v) (Nat.max (rows m) (rows m0))) with n by lia.
      rewrite !stretch_m_same, stretch_v_same by assumption. reflexivity.
    + pose proof (stretch_m_rows _ _ _ _ S1). pose proof (stretch_m_rows _ _ _ _ S2).
      replace (Nat.max (vsize f) (Nat.max (rows m) (rows m0))) with n by lia.
      rewrite !stretch_m_same by assumption. rewrite S3. reflexivity.
    + pose proof (stretch_m_rows _ _ _ _ S1).
      replace (Nat.max (vsize f) (Nat.max (rows m) (rows G))) with n by lia.
      rewrite !stretch_m_same by assumption. rewrite S2. reflexivity.
  - destruct (stretch_v n lo) eqn:S1, (stretch_v n up) eqn:S2; cbn [spanned_con]; fold n; try (rewrite S1, ?S2; reflexivity).
    restretch. rewrite R, R0, Nat.max_id, !stretch_v_same by assumption. reflexivity.
  - destruct (stretch_v n lo) eqn:S1, (stretch_v n up) eqn:S2; cbn [spanned_con]; fold n; try (rewrite S1, ?S2; reflexivity).
    restretch. rewrite R, R0, Nat.max_id, !stretch_v_same by assumption. reflexivity.
Qed.
Lemma spanned_cost_twice d : spanned_cost (spanned_cost d) = spanned_cost d.
Proof.
  destruct d as [E f|E f|E f|E G f]; cbn [spanned_cost]; cbv zeta; [|reflexivity| |];
    match goal with |- context [stretch_m ?k _ _] => set (n := k) | |- context [stretch_v ?k _] => set (n := k) end.
  - destruct (stretch_m n 0 E) eqn:S1, (stretch_v n f) eqn:S2; cbn [spanned_cost]; fold n; try (rewrite S1, ?S2; reflexivity).
    restretch. rewrite R, R0, Nat.max_id, stretch_m_same, stretch_v_same by assumption. reflexivity.
  - destruct (stretch_m n 0 E) eqn:S1, (stretch_v n f) eqn:S2; cbn [spanned_cost]; fold n; try (rewrite S1, ?S2; reflexivity).
    restretch. rewrite R, R0, Nat.max_id, stretch_m_same, stretch_v_same by assumption. reflexivity.
  - destruct (stretch_m n 1 E) eqn:S1; [destruct (stretch_m n 0 G) eqn:S2; [destruct (stretch_v n f) eqn:S3|]|];
      cbn [spanned_cost]; fold n; cbv zeta; try (rewrite S1, ?S2, ?S3; reflexivity).
    + pose proof (stretch_m_rows _ _ _ _ S1). pose proof (stretch_m_rows _ _ _ _ S2). pose proof (stretch_v_size _ _ _ S3).
      replace (Nat.max (rows m) (Nat.max (rows m0) (vsize v))) with n by lia.
      rewrite !stretch_m_same, stretch_v_same by assumption. reflexivity.
    + pose proof (stretch_m_rows _ _ _ _ S1). pose proof (stretch_m_rows _ _ _ _ S2).
      replace (Nat.max (rows m) (Nat.max (rows m0) (vsize f))) with n by lia.
      rewrite !stretch_m_same by assumption. rewrite S3. reflexivity.
    + pose proof (stretch_m_rows _ _ _ _ S1).
      replace (Nat.max (rows m) (Nat.max (rows G) (vsize f))) with n by lia.
      rewrite !stretch_m_same by assumption. rewrite S2. reflexivity.
Qed.

(** ** Data with as many rows everywhere are left alone *)
Definition even_con (d : con_data) : Prop :=
  match d with
  | DTraj E f _ => rows E = vsize f
  | DCtrl G f _ => rows G = vsize f
  | DMixed E G f _ => rows E = vsize f /\ rows G = vsize f
  | DTrajB lo up | DCtrlB lo up => vsize lo = vsize up
  end.
Definition even_cost (d : cost_data) : Prop :=
  match d with
  | DTrajC E f => rows E = vsize f
  | DTargetC E f => True
  | DCtrlC E f => rows E = vsize f
  | DMixedC E G f => rows E = vsize f /\ rows G = vsize f
  end.
Lemma even_con_alike d e : con_alike d e -> even_con d -> even_con e.
Proof.
  destruct d, e; cbn; try tauto; intro H;
    repeat match type of H with _ /\ _ => let A := fresh "A" in destruct H as [A H] end;
    repeat match goal with A : meq ?a ?b |- _ => rewrite <- (proj1 A); clear A | A : veq ?a ?b |- _ => rewrite <- (proj1 A); clear A end; auto.
Qed.
Lemma even_cost_alike d e : cost_alike d e -> even_cost d -> even_cost e.
Proof.
  destruct d, e; cbn; try tauto; intro H;
    repeat match type of H with _ /\ _ => let A := fresh "A" in destruct H as [A H] end;
    repeat match goal with A : meq ?a ?b |- _ => rewrite <- (proj1 A); clear A | A : veq ?a ?b |- _ => rewrite <- (proj1 A); clear A end; auto.
Qed.
Lemma even_con_id d : even_con d -> spanned_con d = d.
Proof.
  destruct d; cbn; intro H.
  - rewrite H, Nat.max_id, stretch_m_same, stretch_v_same by auto. reflexivity.
  - rewrite H, Nat.max_id, stretch_m_same, stretch_v_same by auto. reflexivity.
  - destruct H as [H1 H2]. rewrite H1, H2, !Nat.max_id, !stretch_m_same, stretch_v_same by auto. reflexivity.
  - rewrite H, Nat.max_id, !stretch_v_same by auto. reflexivity.
  - rewrite H, Nat.max_id, !stretch_v_same by auto. reflexivity.
Qed.
Lemma even_cost_id d : even_cost d -> spanned_cost d = d.
Proof.
  destruct d; cbn; intro H.
  - rewrite H, Nat.max_id, stretch_m_same, stretch_v_same by auto. reflexivity.
  - reflexivity.
  - rewrite H, Nat.max_id, stretch_m_same, stretch_v_same by auto. reflexivity.
  - destruct H as [H1 H2]. rewrite H1, H2, !Nat.max_id, !stretch_m_same, stretch_v_same by auto. reflexivity.
Qed.

(** ** autoSpan *)
Lemma span_given j c c' : c_virgin c -> con_nonempty c ->
  c_autoSpan j c = Ok c' \/ (exists e, c_autoSpan j c = Throw e c') ->
  con_alike (c_given c') (spanned_con (c_given c)) /\ (ck c <> KTrajB -> lines_fresh c').
Proof.
  intros V NE H. assert (F : fullSizeEntry c = false) by apply V. unfold c_given. rewrite F.
  unfold c_autoSpan, con_nonempty in *. destruct (ck c) eqn:K; cbn [spanned_con]; cbv zeta.
  - unfold traj_autoSpan, zmax in H. cbv zeta in H. destruct NE as [N1 N2].
    set (n := Nat.max (rows (cE c)) (vsize (cf c))) in *.
    pose proof (spanMatrix_stretch (cE c) n 0 N1) as S1. change (Z.of_nat 0) with 0%Z in S1.
    pose proof (spanVector_stretch (jext j 0) (cf c) n N2 ltac:(unfold n; lia)) as S2.
    destruct (stretch_m n 0 (cE c)) as [P|] eqn:X1; [destruct S1 as [Q [S1 Q1]]|].
    + rewrite S1 in H. destruct (stretch_v n (cf c)) as [p|] eqn:X2; [destruct S2 as [q [S2 Q2]]|]; rewrite S2 in H.
      * destruct H as [H|[? H]]; [injection H as <-|discriminate H]. unfold lines_fresh; cbn; rewrite K. cbn. split; [auto|discriminate].
      * destruct H as [H|[? H]]; [discriminate H|injection H as _ <-]. unfold lines_fresh; cbn; rewrite K. cbn. split; [|discriminate].
        split; [|auto using veq_refl]. assert (E : rows (cE c) = n).
        { unfold n. destruct (Nat.max_spec (rows (cE c)) (vsize (cf c))) as [[_ M]|[_ M]]; [|symmetry; exact M].
          exfalso. rewrite stretch_v_same in X2; [discriminate X2|]. unfold n. symmetry. exact M. }
        rewrite stretch_m_same in X1 by exact E. injection X1 as <-. exact Q1.
    + rewrite S1 in H. destruct H as [H|[? H]]; [discriminate H|injection H as _ <-]. unfold lines_fresh; cbn; rewrite K. cbn.
      split; [auto using meq_refl, veq_refl|discriminate].
  - unfold ctrl_autoSpan, zmax in H. cbv zeta in H. destruct NE as [N1 N2].
    set (n := Nat.max (rows (cG c)) (vsize (cf c))) in *.
    pose proof (spanMatrix_stretch (cG c) n 0 N1) as S1. change (Z.of_nat 0) with 0%Z in S1.
    pose proof (spanVector_stretch (jext j 0) (cf c) n N2 ltac:(unfold n; lia)) as S2.
    destruct (stretch_m n 0 (cG c)) as [P|] eqn:X1; [destruct S1 as [Q [S1 Q1]]|].
    + rewrite S1 in H. destruct (stretch_v n (cf c)) as [p|] eqn:X2; [destruct S2 as [q [S2 Q2]]|]; rewrite S2 in H.
      * destruct H as [H|[? H]]; [injection H as <-|discriminate H]. unfold lines_fresh; cbn; rewrite K, F. cbn. split; [auto|discriminate].
      * destruct H as [H|[? H]]; [discriminate H|injection H as _ <-]. unfold lines_fresh; cbn; rewrite K, F. cbn. split; [|discriminate].
        split; [|auto using veq_refl]. assert (E : rows (cG c) = n).
        { unfold n. destruct (Nat.max_spec (rows (cG c)) (vsize (cf c))) as [[_ M]|[_ M]]; [|symmetry; exact M].
          exfalso. rewrite stretch_v_same in X2; [discriminate X2|]. unfold n. symmetry. exact M. }
        rewrite stretch_m_same in X1 by exact E. injection X1 as <-. exact Q1.
    + rewrite S1 in H. destruct H as [H|[? H]]; [discriminate H|injection H as _ <-]. unfold lines_fresh; cbn; rewrite K, F. cbn.
      split; [auto using meq_refl, veq_refl|discriminate].
  - unfold mixed_autoSpan, zmax in H. cbv zeta in H. destruct NE as [N1 [N2 N3]].
    set (n := Nat.max (vsize (cf c)) (Nat.max (rows (cE c)) (rows (cG c)))) in *.
    pose proof (spanMatrix_stretch (cE c) n 1 N1) as S1. change (Z.of_nat 1) with 1%Z in S1.
    pose proof (spanMatrix_stretch (cG c) n 0 N2) as S2. change (Z.of_nat 0) with 0%Z in S2.
    pose proof (spanVector_stretch (jext j 0) (cf c) n N3 ltac:(unfold n; lia)) as S3.
    destruct (stretch_m n 1 (cE c)) as [P|] eqn:X1; [destruct S1 as [Q [S1 Q1]]|]; rewrite S1 in H;
      [destruct (stretch_m n 0 (cG c)) as [P2|] eqn:X2; [destruct S2 as [Q2 [S2 Q2']]|]; rewrite S2 in H;
        [destruct (stretch_v n (cf c)) as [p|] eqn:X3; [destruct S3 as [q [S3 Q3]]|]; rewrite S3 in H|]|];
      destruct H as [H|[? H]]; try discriminate H; injection H; intros; subst c'; unfold lines_fresh; cbn; rewrite K; cbn;
      (split; [auto 6 using meq_refl, veq_refl|discriminate]).
  - unfold trajB_autoSpan, zmax in H. cbv zeta in H. destruct NE as [N1 N2].
    set (n := Nat.max (vsize (clower c)) (vsize (cupper c))) in *.
    pose proof (spanVector_stretch (jext j 0) (clower c) n N1 ltac:(unfold n; lia)) as S1.
    pose proof (spanVector_stretch (jext j 1) (cupper c) n N2 ltac:(unfold n; lia)) as S2. split; [|congruence].
    destruct (stretch_v n (clower c)) as [P|] eqn:X1; [destruct S1 as [Q [S1 Q1]]|]; rewrite S1 in H.
    + destruct (stretch_v n (cupper c)) as [p|] eqn:X2; [destruct S2 as [q [S2 Q2]]|]; rewrite S2 in H;
        destruct H as [H|[? H]]; try discriminate H; injection H; intros; subst c'; cbn; rewrite K; cbn; auto.
      split; [|auto using veq_refl]. assert (E : vsize (clower c) = n).
      { unfold n. destruct (Nat.max_spec (vsize (clower c)) (vsize (cupper c))) as [[_ M]|[_ M]]; [|symmetry; exact M].
        exfalso. rewrite stretch_v_same in X2; [discriminate X2|]. unfold n. symmetry. exact M. }
      rewrite stretch_v_same in X1 by exact E. injection X1 as <-. exact Q1.
    + destruct H as [H|[? H]]; try discriminate H; injection H; intros; subst c'; cbn; rewrite K; cbn. auto using veq_refl.
  - unfold ctrlB_autoSpan, zmax in H. cbv zeta in H. destruct NE as [N1 N2].
    set (n := Nat.max (vsize (clower c)) (vsize (cupper c))) in *.
    pose proof (spanVector_stretch (jext j 0) (clower c) n N1 ltac:(unfold n; lia)) as S1.
    pose proof (spanVector_stretch (jext j 1) (cupper c) n N2 ltac:(unfold n; lia)) as S2.
    destruct (stretch_v n (clower c)) as [P|] eqn:X1; [destruct S1 as [Q [S1 Q1]]|]; rewrite S1 in H.
    + destruct (stretch_v n (cupper c)) as [p|] eqn:X2; [destruct S2 as [q [S2 Q2]]|]; rewrite S2 in H;
        destruct H as [H|[? H]]; try discriminate H; injection H; intros; subst c'; unfold lines_fresh; cbn; rewrite K, F; cbn; (split; [|discriminate]); auto.
      split; [|auto using veq_refl]. assert (E : vsize (clower c) = n).
      { unfold n. destruct (Nat.max_spec (vsize (clower c)) (vsize (cupper c))) as [[_ M]|[_ M]]; [|symmetry; exact M].
        exfalso. rewrite stretch_v_same in X2; [discriminate X2|]. unfold n. symmetry. exact M. }
      rewrite stretch_v_same in X1 by exact E. injection X1 as <-. exact Q1.
    + destruct H as [H|[? H]]; try discriminate H; injection H; intros; subst c'; unfold lines_fresh; cbn; rewrite K, F; cbn. split; [auto using veq_refl|discriminate].
Qed.
Lemma spanned_even D c : c_inited D c -> even_con (c_given c).
Proof.
  intros [Sh [_ [S _]]]. unfold c_spanned, c_given, c_shape in *. destruct (ck c); cbn; try exact S.
  - destruct (fullSizeEntry c); cbn; [|exact S]. destruct Sh as [[Z1 [_ [Z3 _]]] _]. congruence.
  - destruct (fullSizeEntry c) eqn:F; cbn; [|exact S]. destruct Sh as [_ Sh]. intuition congruence.
Qed.

Lemma spanVector_copies jk (v : vec Qc) n : vsize v <> 0 -> vsize v <= n -> stretch_v n v <> None ->
  exists w, spanVector jk v (Z.of_nat n) = Ok w /\ veq w (copies n v).
Proof.
  intros R L H. pose proof (spanVector_stretch jk v n R L) as S. unfold stretch_v in *.
  destruct (Nat.eqb_spec (vsize v) n) as [E|Ne].
  - destruct S as [Q [S1 S2]]. exists Q. split; [exact S1|]. eapply veq_trans; [exact S2|]. split; [exact E|]. cbn. intros i Hi.
    rewrite Nat.mod_small by exact Hi. reflexivity.
  - destruct (Nat.eqb _ 0); [exact S|congruence].
Qed.
Lemma copies_same (v : vec Qc) n : vsize v = n -> veq (copies n v) v.
Proof. intro E. split; [cbn; auto|]. cbn. intros i Hi. rewrite Nat.mod_small by lia. reflexivity. Qed.
Lemma copies_cong (v v' : vec Qc) n : (n <> 0 -> vsize v <> 0) -> veq v v' -> veq (copies n v) (copies n v').
Proof.
  intros Z [S E]. split; [reflexivity|]. cbn. intros i Hi. rewrite <- S. apply E. apply Nat.mod_upper_bound. apply Z. lia.
Qed.
Lemma stretch_sizes {T U} n (v : vec T) (w : vec U) : vsize v = vsize w -> (stretch_v n v = None <-> stretch_v n w = None).
Proof.
  intro E. unfold stretch_v. rewrite E. destruct (Nat.eqb _ _); [split; discriminate|]. destruct (Nat.eqb _ _); split; try discriminate; auto.
Qed.
Lemma span_pw_given j c M N n : vsize (kp c) <> 0 -> vsize (kp c) <= n -> vsize (kw c) = vsize (kp c) ->
  match stretch_v n (kp c) with
  | Some p => exists q w, span_pw j c M N (Z.of_nat n) = Ok (set_data c M N q w) /\ veq q p /\ veq w (copies n (kw c))
  | None => span_pw j c M N (Z.of_nat n) = Throw DomainError (set_data c M N (kp c) (kw c))
  end.
Proof.
  intros R L W. unfold span_pw. pose proof (spanVector_stretch (jvec j 0) (kp c) n R L) as S.
  destruct (stretch_v n (kp c)) as [p|] eqn:E.
  - destruct S as [q [-> Q]]. destruct (spanVector_copies (jvec j 1) (kw c) n) as [w [-> Hw]]; [lia|lia| |eauto 6].
    intro X. apply (stretch_sizes n (kp c) (kw c)) in X; [congruence|auto].
  - rewrite S. reflexivity.
Qed.
Lemma spanC_given j c c' : fresh_ok c -> cost_nonempty c ->
  k_autoSpan j c = Ok c' \/ (exists e, k_autoSpan j c = Throw e c') ->
  cost_alike (k_given c') (spanned_cost (k_given c)) /\ veq (kw c') (copies (cost_rows (spanned_cost (k_given c))) (kw c)).
Proof.
  intros [F W] NE H. unfold k_given. unfold k_autoSpan, cost_nonempty in *. destruct (kk c) eqn:K; cbn [spanned_cost]; cbv zeta.
  - unfold trajC_autoSpan, zmax in H. cbv zeta in H. destruct NE as [N1 N2]. rewrite W, Nat.max_id in H.
    set (n := Nat.max (rows (kM c)) (vsize (kp c))) in *.
    pose proof (spanMatrix_stretch (kM c) n 0 N1) as S1. change (Z.of_nat 0) with 0%Z in S1.
    destruct (stretch_m n 0 (kM c)) as [P|] eqn:X1; [destruct S1 as [Q [S1 Q1]]|]; rewrite S1 in H.
    + pose proof (span_pw_given j c Q (kN c) n N2 ltac:(unfold n; lia) W) as S2.
      destruct (stretch_v n (kp c)) as [p|] eqn:X2; [destruct S2 as [q [w [S2 [Q2 Q3]]]]|]; rewrite S2 in H.
      * destruct H as [H|[? H]]; [injection H as <-|discriminate H]. cbn. rewrite K. unfold cost_rows. cbn. rewrite ?(stretch_v_size _ _ _ X2). auto.
      * destruct H as [H|[? H]]; [discriminate H|injection H as _ <-]. cbn. rewrite K. cbn.
        split; [|apply veq_sym, copies_same; exact W].
        split; [|apply veq_refl]. assert (E : rows (kM c) = n).
        { unfold n. destruct (Nat.max_spec (rows (kM c)) (vsize (kp c))) as [[_ M]|[_ M]]; [|symmetry; exact M].
          exfalso. rewrite stretch_v_same in X2; [discriminate X2|]. unfold n. symmetry. exact M. }
        rewrite stretch_m_same in X1 by exact E. injection X1 as <-. exact Q1.
    + destruct H as [H|[? H]]; [discriminate H|injection H as _ <-]. cbn. rewrite K. cbn.
      split; [split; [apply meq_refl|apply veq_refl]|apply veq_sym, copies_same; exact W].
  - destruct H as [H|[? H]]; [injection H as <-|discriminate H]. rewrite K. cbn.
    split; [split; [apply meq_refl|apply veq_refl]|apply veq_sym, copies_same; exact W].
  - unfold ctrlC_autoSpan, zmax in H. cbv zeta in H. destruct NE as [N1 N2]. rewrite W, Nat.max_id in H.
    set (n := Nat.max (rows (kN c)) (vsize (kp c))) in *.
    pose proof (spanMatrix_stretch (kN c) n 0 N1) as S1. change (Z.of_nat 0) with 0%Z in S1.
    destruct (stretch_m n 0 (kN c)) as [P|] eqn:X1; [destruct S1 as [Q [S1 Q1]]|]; rewrite S1 in H.
    + pose proof (span_pw_given j c (kM c) Q n N2 ltac:(unfold n; lia) W) as S2.
      destruct (stretch_v n (kp c)) as [p|] eqn:X2; [destruct S2 as [q [w [S2 [Q2 Q3]]]]|]; rewrite S2 in H.
      * destruct H as [H|[? H]]; [injection H as <-|discriminate H]. cbn. rewrite K. unfold cost_rows. cbn. rewrite ?(stretch_v_size _ _ _ X2). auto.
      * destruct H as [H|[? H]]; [discriminate H|injection H as _ <-]. cbn. rewrite K. cbn.
        split; [|apply veq_sym, copies_same; exact W].
        split; [|apply veq_refl]. assert (E : rows (kN c) = n).
        { unfold n. destruct (Nat.max_spec (rows (kN c)) (vsize (kp c))) as [[_ M]|[_ M]]; [|symmetry; exact M].
          exfalso. rewrite stretch_v_same in X2; [discriminate X2|]. unfold n. symmetry. exact M. }
        rewrite stretch_m_same in X1 by exact E. injection X1 as <-. exact Q1.
    + destruct H as [H|[? H]]; [discriminate H|injection H as _ <-]. cbn. rewrite K. cbn.
      split; [split; [apply meq_refl|apply veq_refl]|apply veq_sym, copies_same; exact W].
  - unfold mixedC_autoSpan, zmax in H. cbv zeta in H. destruct NE as [N1 [N2 N3]]. rewrite W, Nat.max_id in H.
    set (n := Nat.max (rows (kM c)) (Nat.max (rows (kN c)) (vsize (kp c)))) in *.
    pose proof (spanMatrix_stretch (kM c) n 1 N1) as S1. change (Z.of_nat 1) with 1%Z in S1.
    pose proof (spanMatrix_stretch (kN c) n 0 N2) as S2. change (Z.of_nat 0) with 0%Z in S2.
    destruct (stretch_m n 1 (kM c)) as [P|] eqn:X1; [destruct S1 as [Q [S1 Q1]]|]; rewrite S1 in H.
    + destruct (stretch_m n 0 (kN c)) as [P2|] eqn:X2; [destruct S2 as [Q2 [S2 Q2']]|]; rewrite S2 in H.
      * pose proof (span_pw_given j c Q Q2 n N3 ltac:(unfold n; lia) W) as S3.
        destruct (stretch_v n (kp c)) as [p|] eqn:X3; [destruct S3 as [q [w [S3 [Q3 Q4]]]]|]; rewrite S3 in H.
        -- destruct H as [H|[? H]]; [injection H as <-|discriminate H]. cbn. rewrite K. unfold cost_rows. cbn. rewrite ?(stretch_v_size _ _ _ X3). auto.
        -- destruct H as [H|[? H]]; [discriminate H|injection H as _ <-]. cbn. rewrite K. cbn.
           split; [auto using veq_refl|apply veq_sym, copies_same; exact W].
      * destruct H as [H|[? H]]; [discriminate H|injection H as _ <-]. cbn. rewrite K. cbn.
        split; [auto using meq_refl, veq_refl|apply veq_sym, copies_same; exact W].
    + destruct H as [H|[? H]]; [discriminate H|injection H as _ <-]. cbn. rewrite K. cbn.
      split; [auto using meq_refl, veq_refl|apply veq_sym, copies_same; exact W].
Qed.
Lemma inited_even D c : k_inited D c -> even_cost (k_given c) /\ vsize (kw c) = cost_rows (k_given c).
Proof.
  intros [[_ [W [Dm _]]] _]. unfold k_dims, k_given in *. destruct (kk c); cbn; intuition.
Qed.
Lemma fresh_rows c : fresh_ok c -> vsize (kw c) = cost_rows (k_given c).
Proof. intros [_ W]. unfold k_given. destruct (kk c); exact W. Qed.
Lemma cost_rows_alike d e : cost_alike d e -> cost_rows d = cost_rows e.
Proof. destruct d, e; cbn; try tauto; intro H; intuition; match goal with A : veq _ _ |- _ => apply A end. Qed.
