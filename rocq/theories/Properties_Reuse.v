(** Properties_Reuse.v -- C46: objects used again with another system. *)
From Verif Require Import Base Eigen Spec Preview SpecApi PreviewProofs AutoSpan AutoSpanProofs Constraints ConstraintProofs
  SpecConstraints ConstraintMeaning Checkers Costs SpecCosts CostProofs CostMeaning Properties_Costs SpecEndToEnd SpanData EndToEnd Determined SpecReuse.

Definition reusable (c : constr) : Prop := ck c = KTraj \/ ck c = KMixed \/ ck c = KTrajB.

(** ** The flags *)
Lemma c_update_flags ps c c' : c_update ps c = Some c' -> same_data c c'.
Proof.
  unfold c_update. destruct (ck c) eqn:K.
  - unfold traj_update. destruct (fullSizeEntry c).
    + repeat match goal with |- context [obind ?x _] => destruct x; cbn [obind]; [|discriminate] end. intro H; injection H as <-. apply same_data_rows.
    + destruct (for_ _ _ _ _) as [[[[A b] Y] z]|]; [|discriminate]. cbn. intro H; injection H as <-. apply same_data_rows.
  - unfold ctrl_update. destruct (fullSizeEntry c); [intro H; injection H as <-; apply same_data_refl|].
    destruct (for_ _ _ _ _) as [[A b]|]; [|discriminate]. cbn. intro H; injection H as <-. apply same_data_rows.
  - unfold mixed_update. destruct (fullSizeEntry c).
    + repeat match goal with |- context [obind ?x _] => destruct x; cbn [obind]; [|discriminate] end. intro H; injection H as <-. apply same_data_rows.
    + cbv zeta. repeat match goal with |- context [obind ?x _] => destruct x; cbn [obind]; [|discriminate] end.
      match goal with |- match ?v with _ => _ end = _ -> _ => destruct v as [[[? ?] ?] ?] end. intro H; injection H as <-. apply same_data_rows.
  - unfold trajB_update. cbv zeta. repeat match goal with |- context [obind ?x _] => destruct x; cbn [obind]; [|discriminate] end.
    match goal with |- match ?v with _ => _ end = _ -> _ => destruct v as [[[[? ?] ?] ?] ?] end. intro H; injection H as <-. apply same_data_rows.
  - unfold ctrlB_update. destruct (fullSizeEntry c); [intro H; injection H as <-; apply same_data_refl|].
    destruct (for_ _ _ _ _) as [[A b]|]; [|discriminate]. cbn. intro H; injection H as <-. repeat split.
Qed.
Lemma c_init_throw j ps c e c' : initializeConstraint j ps c = Throw e c' -> c' = c.
Proof.
  unfold initializeConstraint. destruct (ck c); [unfold traj_init|unfold ctrl_init|unfold mixed_init|unfold trajB_init|unfold ctrlB_init]; cbv zeta;
    repeat match goal with |- context [if ?b then _ else _] => destruct b end; intro H; try discriminate; injection H as _ <-; reflexivity.
Qed.
Lemma c_span_flags j c c' : c_autoSpan j c = Ok c' \/ (exists e, c_autoSpan j c = Throw e c') -> ck c' = ck c /\ fullSizeEntry c' = fullSizeEntry c.
Proof.
  unfold c_autoSpan. destruct (ck c) eqn:K; [unfold traj_autoSpan|unfold ctrl_autoSpan|unfold mixed_autoSpan|unfold trajB_autoSpan|unfold ctrlB_autoSpan]; cbv zeta;
    intro H; repeat match type of H with context [match ?x with _ => _ end] => destruct x end;
    destruct H as [H|[e' H]]; try discriminate; injection H; intros; subst; cbn; auto.
Qed.
Lemma init_full j ps c c' : initializeConstraint j ps c = Ok c' -> fullSizeEntry c' = true -> fullSizeEntry c = true \/ ~ one_step ps c.
Proof.
  intros H F. destruct (init_keeps _ _ _ _ H) as [_ [_ [_ [_ K]]]]. unfold one_step. destruct (ck c).
  - destruct K as [_ [_ [_ [K _]]]]. destruct (Nat.eqb_spec (cols (cE c)) (xDim ps)); [left; congruence|right; assumption].
  - destruct K as [_ [K _]]. destruct (Nat.eqb_spec (cols (cG c)) (uDim ps)); [left; congruence|right; assumption].
  - destruct K as [_ [_ [_ [_ [_ [K _]]]]]]. destruct (Nat.eqb_spec (cols (cE c)) (xDim ps)), (Nat.eqb_spec (cols (cG c)) (uDim ps)); cbn in K;
      try (right; tauto). left; congruence.
  - destruct K as [_ [_ [_ [K _]]]]. destruct (Nat.eqb_spec (vsize (clower c)) (xDim ps)); [left; congruence|right; assumption].
  - destruct K as [_ [K _]]. destruct (Nat.eqb_spec (vsize (clower c)) (uDim ps)); [left; congruence|right; assumption].
Qed.
Lemma was_full_cons c e c1 t : (c_happens c e = Ok c1 \/ exists x, c_happens c e = Throw x c1) -> was_full_size c1 t -> was_full_size c (e :: t).
Proof.
  intros H [h1 [j [ps [h2 [d1 [d2 [-> [L [I O]]]]]]]]]. exists (e :: h1), j, ps, h2, d1, d2. split; [reflexivity|]. split; [|auto].
  cbn [c_life]. destruct H as [->|[x ->]]; exact L.
Qed.
Lemma life_full : forall h c c', c_life c h = Some c' -> ck c' = ck c /\ (fullSizeEntry c' = true -> fullSizeEntry c = true \/ was_full_size c h).
Proof.
  induction h as [|e t IH]; intros c c' H; cbn [c_life] in H.
  - injection H as <-. auto.
  - assert (G : exists c1, (c_happens c e = Ok c1 \/ exists x, c_happens c e = Throw x c1) /\ c_life c1 t = Some c').
    { destruct (c_happens c e) as [c1|x c1|]; [exists c1; eauto|exists c1; eauto|discriminate]. }
    destruct G as [c1 [E L]]. destruct (IH c1 c' L) as [K F].
    assert (S : ck c1 = ck c /\ (fullSizeEntry c1 = true -> fullSizeEntry c = true \/ was_full_size c (e :: t))).
    { destruct e as [j ps|ps|j]; cbn [c_happens] in E.
      - destruct E as [E|[x E]]; [|apply c_init_throw in E; subst c1; auto]. split; [apply (init_keeps _ _ _ _ E)|]. intro Q.
        destruct (init_full j ps c c1 E Q) as [Y|Y]; [left; exact Y|right]. exists [], j, ps, t, c, c1. repeat split; assumption.
      - destruct (c_update ps c) as [c2|] eqn:U; cbn in E; [|destruct E as [E|[x E]]; discriminate]. destruct E as [E|[x E]]; [|discriminate].
        injection E as <-. destruct (c_update_flags ps c c2 U) as [S1 [_ [_ [S2 _]]]]. rewrite S1, S2. auto.
      - destruct (c_span_flags j c c1 E) as [-> ->]. auto. }
    destruct S as [K1 F1]. split; [congruence|]. intro Q. destruct (F Q) as [Y|Y]; [apply F1; exact Y|]. right. eapply was_full_cons; eassumption.
Qed.

(** without autoSpan the data are those of the construction *)
Lemma life_data : forall h c c', reusable c -> never_autoSpanned h -> c_life c h = Some c' ->
  ck c' = ck c /\ new_like c' = new_like c /\ lowerLines c' = lowerLines c /\ upperLines c' = upperLines c /\ isIneq c' = isIneq c /\
  clower c' = clower c /\ cupper c' = cupper c.
Proof.
  induction h as [|e t IH]; intros c c' Ru Nv H; cbn [c_life] in H.
  - injection H as <-. repeat split.
  - assert (G : exists c1, (c_happens c e = Ok c1 \/ exists x, c_happens c e = Throw x c1) /\ c_life c1 t = Some c').
    { destruct (c_happens c e) as [c1|x c1|]; [exists c1; eauto|exists c1; eauto|discriminate]. }
    destruct G as [c1 [E L]].
    assert (S : ck c1 = ck c /\ new_like c1 = new_like c /\ lowerLines c1 = lowerLines c /\ upperLines c1 = upperLines c /\ isIneq c1 = isIneq c /\
                clower c1 = clower c /\ cupper c1 = cupper c).
    { destruct e as [j ps|ps|j]; cbn [c_happens] in E; [| |exfalso; apply (Nv j); left; reflexivity].
      - destruct E as [E|[x E]]; [|apply c_init_throw in E; subst c1; repeat split].
        revert E. unfold initializeConstraint, new_like. destruct Ru as [K|[K|K]]; rewrite K; [unfold traj_init|unfold mixed_init|unfold trajB_init]; cbv zeta; intro E;
          use_ifs E; cbn; rewrite K; repeat split.
      - destruct (c_update ps c) as [c2|] eqn:U; cbn in E; [|destruct E as [E|[x E]]; discriminate]. destruct E as [E|[x E]]; [|discriminate].
        injection E as <-. destruct (c_update_flags ps c c2 U) as [S1 [S2 [_ [_ [_ [S3 [S4 [S5 [S6 [S7 [S8 S9]]]]]]]]]]]. unfold new_like. rewrite S1, S2, S3, S4, S5, S6, S7. repeat split; assumption. }
    destruct S as [K1 [N1 [L1 [U1 [I1 [B1 B2]]]]]].
    destruct (IH c1 c') as [K2 [N2 [L2 [U2 [I2 [B3 B4]]]]]].
    + unfold reusable in *. rewrite K1. exact Ru.
    + intros j Hj. apply (Nv j). right. exact Hj.
    + exact L.
    + repeat split; congruence.
Qed.

(** ** Registering the object, and registering a new one with the same data *)
Definition agree_init (ps : psys) (a b : outcome constr) : Prop :=
  match a, b with
  | Ok c, Ok d => c_shape ps c /\ c_shape ps d /\ c_alike c d
  | Throw e _, Throw e' _ => e = e'
  | UB, UB => True
  | _, _ => False
  end.
Lemma init_agree j1 j2 ps c : reusable c -> (ck c = KTrajB -> isIneq c = true /\ lowerLines c = finite_lower_lines (clower c) /\ upperLines c = finite_upper_lines (cupper c)) ->
  (fullSizeEntry c = true -> ~ one_step ps c) ->
  agree_init ps (initializeConstraint j1 ps c) (initializeConstraint j2 ps (new_like c)).
Proof.
  intros Ru LF F. unfold agree_init, initializeConstraint, new_like, one_step in *.
  destruct Ru as [K|[K|K]]; rewrite K in *; cbn [ck mkTraj mkMixed mkTrajB]; [unfold traj_init|unfold mixed_init|unfold trajB_init]; cbv zeta; cbn [cE cG cf clower cupper lowerLines upperLines mkTraj mkMixed mkTrajB fullSizeEntry].
  - destruct (Nat.eqb_spec (rows (cE c)) (vsize (cf c))) as [R|]; cbn [negb]; [|reflexivity].
    destruct (Nat.eqb_spec (cols (cE c)) (xDim ps)) as [S|S].
    + assert (FF : fullSizeEntry c = false) by (destruct (fullSizeEntry c); [exfalso; apply F; auto|reflexivity]).
      destruct (fits_int _); [|exact I]. unfold c_shape, c_alike, c_given. cbn [ck resize_rows set_rows set_flags mkTraj]. rewrite K.
      cbn [isIneq nrConstr fullSizeEntry cE cf set_rows set_flags mkTraj]. rewrite FF.
      split; [split; [apply resize_sized|cbn; rewrite ?FF; auto]|]. split; [split; [apply resize_sized|cbn; rewrite ?FF; auto]|]. repeat split; discriminate.
    + destruct (Nat.eqb_spec (cols (cE c)) (fullXDim ps)) as [S'|]; [|reflexivity].
      destruct (fits_int _); [|exact I]. unfold c_shape, c_alike, c_given. cbn [ck resize_rows set_rows set_flags mkTraj]. rewrite K.
      cbn [isIneq nrConstr fullSizeEntry cE cf set_rows set_flags mkTraj].
      split; [split; [apply resize_sized|cbn; rewrite ?FF; auto]|]. split; [split; [apply resize_sized|cbn; rewrite ?FF; auto]|]. repeat split; discriminate.
  - destruct (Nat.eqb_spec (rows (cE c)) (vsize (cf c))) as [R|]; cbn [negb]; [|reflexivity].
    destruct (Nat.eqb_spec (rows (cG c)) (vsize (cf c))) as [R'|]; cbn [negb]; [|reflexivity].
    assert (SZ : forall j cc nr fl, sized ps (let c' := resize_rows j ps cc nr fl in set_rows c' (msetZero (cA c')) (cb c') (msetZero (cY c')) (cz c'))).
    { intros. unfold sized; cbn. rewrite !mresize_rows, !mresize_cols, !vresize_size. repeat split. }
    destruct (Nat.eqb (cols (cE c)) (xDim ps) && Nat.eqb (cols (cG c)) (uDim ps)) eqn:S.
    + apply andb_true_iff in S. destruct S as [S1 S2]. apply Nat.eqb_eq in S1, S2.
      assert (FF : fullSizeEntry c = false) by (destruct (fullSizeEntry c); [exfalso; apply F; auto|reflexivity]).
      destruct (fits_int _); [|exact I]. unfold c_shape, c_alike, c_given. cbn [ck resize_rows set_rows set_flags mkMixed]. rewrite K.
      cbn [isIneq nrConstr fullSizeEntry cE cG cf set_rows set_flags mkMixed cA]. rewrite FF.
      split; [split; [apply (SZ j1 c)|cbn; rewrite ?FF; repeat split; auto]|]. split; [split; [apply (SZ j2 (mkMixed _ _ _ _))|cbn; rewrite ?FF; repeat split; auto]|]. repeat split; discriminate.
    + destruct (Nat.eqb (cols (cE c)) (fullXDim ps) && Nat.eqb (cols (cG c)) (fullUDim ps)) eqn:S'; [|reflexivity].
      apply andb_true_iff in S'. destruct S' as [S1 S2]. apply Nat.eqb_eq in S1, S2.
      destruct (fits_int _); [|exact I]. unfold c_shape, c_alike, c_given. cbn [ck resize_rows set_rows set_flags mkMixed]. rewrite K.
      cbn [isIneq nrConstr fullSizeEntry cE cG cf set_rows set_flags mkMixed cA].
      split; [split; [apply (SZ j1 c)|cbn; rewrite ?FF; repeat split; auto]|]. split; [split; [apply (SZ j2 (mkMixed _ _ _ _))|cbn; rewrite ?FF; repeat split; auto]|]. repeat split; discriminate.
  - destruct (LF eq_refl) as [IQ [L1 L2]]. destruct (mkTrajB_lines (clower c) (cupper c)) as [L3 L4]. cbn [lowerLines upperLines mkTrajB clower cupper] in L3, L4.
    destruct (Nat.eqb_spec (vsize (clower c)) (vsize (cupper c))) as [R|]; cbn [negb]; [|reflexivity]. rewrite L1, L2.
    destruct (Nat.eqb_spec (vsize (clower c)) (xDim ps)) as [S|S].
    + assert (FF : fullSizeEntry c = false) by (destruct (fullSizeEntry c); [exfalso; apply F; auto|reflexivity]).
      destruct (fits_int _); [|exact I]. unfold c_shape, c_alike, c_given. cbn [ck resize_rows set_rows set_flags mkTrajB]. rewrite K.
      cbn [isIneq nrConstr fullSizeEntry clower cupper lowerLines upperLines set_rows set_flags mkTrajB]. cbn; rewrite ?FF, ?L1, ?L2, ?IQ.
      split; [split; [apply resize_sized|cbn; rewrite ?FF, ?L1, ?L2; repeat split; auto]|]. split; [split; [apply resize_sized|cbn; rewrite ?FF, ?L1, ?L2; repeat split; auto]|]. repeat split.
    + destruct (Nat.eqb_spec (vsize (clower c)) (fullXDim ps)) as [S'|]; [|reflexivity].
      destruct (fits_int _); [|exact I]. unfold c_shape, c_alike, c_given. cbn [ck resize_rows set_rows set_flags mkTrajB]. rewrite K.
      cbn [isIneq nrConstr fullSizeEntry clower cupper lowerLines upperLines set_rows set_flags mkTrajB]. cbn; rewrite ?L1, ?L2, ?IQ.
      split; [split; [apply resize_sized|cbn; rewrite ?FF, ?L1, ?L2; repeat split; auto]|]. split; [split; [apply resize_sized|cbn; rewrite ?FF, ?L1, ?L2; repeat split; auto]|]. repeat split.
Qed.
Lemma shape_sizes ps c : c_shape ps c -> reusable c -> sized ps c.
Proof. unfold c_shape. intros S [K|[K|K]]; rewrite K in S; apply S. Qed.
Lemma updates_agree ps0 pss ps c d : reusable c -> c_shape ps0 c -> c_shape ps0 d -> c_alike c d -> solves_with ps0 pss ps ->
  exists c' d', c_updates (pss ++ [ps]) c = Some c' /\ c_updates (pss ++ [ps]) d = Some d' /\ same_rows c' d'.
Proof.
  intros Ru Sc Sd A SW. destruct (updates_ok ps0 pss ps c Sc SW) as [c' [Ec [Oc [Sc' Rc]]]]. destruct (updates_ok ps0 pss ps d Sd SW) as [d' [Ed [Od [Sd' Rd]]]].
  exists c', d'. split; [exact Ec|]. split; [exact Ed|].
  destruct Oc as [[C1 [C2 [C3 _]]] _]. destruct Od as [[D1 [D2 [D3 _]]] _]. pose proof A as [K [Q [Nr _]]].
  assert (NB : ck c <> KCtrlB) by (destruct Ru as [X|[X|X]]; rewrite X; discriminate).
  assert (Rc' : reusable c') by (unfold reusable in *; rewrite C1; exact Ru). assert (Rd' : reusable d') by (unfold reusable in *; rewrite D1, <- K; exact Ru).
  pose proof (shape_sizes ps c' Sc' Rc') as [A1 [A2 [A3 [A4 [A5 A6]]]]]. pose proof (shape_sizes ps d' Sd' Rd') as [B1 [B2 [B3 [B4 [B5 B6]]]]].
  assert (Scp : c_shape ps c) by (apply (c_shape_dims ps0 ps); [apply same_dims_sym; unfold solves_with in SW; rewrite Forall_forall in SW; apply SW; apply in_or_app; right; left; reflexivity|exact Sc]).
  assert (G : forall r, r < nrConstr c -> _) by (intros r Hr; exact (alike_rows ps ps c d c' d' r ltac:(repeat split) A Rc Rd Scp NB Hr)). cbv beta in G.
  unfold same_rows, meq, veq, constraintType. rewrite C1, C2, D1, D2, K, (Q NB), A1, A2, A3, A4, A5, A6, B1, B2, B3, B4, B5, B6, C3, D3, Nr.
  rewrite Nr in G. repeat split; intros; (apply G; assumption).
Qed.

(** ** Constraints *)
Theorem C46_constraint_reused_partial : forall c0 h c ps2 j1 j2 pss ps,
  fresh_constr c0 -> reusable c0 -> c_life c0 h = Some c -> (ck c0 = KTrajB -> never_autoSpanned h) ->
  (was_full_size c0 h -> ~ one_step ps2 c) -> solves_with ps2 pss ps ->
  match initializeConstraint j1 ps2 c, initializeConstraint j2 ps2 (new_like c) with
  | Ok d, Ok d' => exists e e', c_updates (pss ++ [ps]) d = Some e /\ c_updates (pss ++ [ps]) d' = Some e' /\ same_rows e e'
  | Throw x _, Throw y _ => x = y
  | UB, UB => True
  | _, _ => False
  end.
Proof.
  intros c0 h c ps2 j1 j2 pss ps Fr Ru L NS WF SW. destruct (life_full h c0 c L) as [K F].
  assert (F0 : fullSizeEntry c0 = false) by (destruct Fr; reflexivity).
  assert (Rc : reusable c) by (unfold reusable in *; rewrite K; exact Ru).
  assert (A : agree_init ps2 (initializeConstraint j1 ps2 c) (initializeConstraint j2 ps2 (new_like c))).
  { apply init_agree; [exact Rc| |].
    - intro Q. rewrite K in Q. destruct (life_data h c0 c Ru (NS Q) L) as [_ [_ [-> [-> [-> [-> ->]]]]]]. destruct Fr; try discriminate Q. repeat split.
    - intro Q. apply WF. destruct (F Q) as [X|X]; [congruence|exact X]. }
  unfold agree_init in A. destruct (initializeConstraint j1 ps2 c) as [d|x d|] eqn:E1, (initializeConstraint j2 ps2 (new_like c)) as [d'|y d'|]; try exact A.
  destruct A as [S1 [S2 A]]. apply (updates_agree ps2 pss ps d d'); try assumption.
  destruct (init_keeps _ _ _ _ E1) as [Kd _]. unfold reusable in *. rewrite Kd. exact Rc.
Qed.
(** the data are those of the construction if the object was never spanned *)
Theorem C46_data_kept : forall c0 h c, fresh_constr c0 -> reusable c0 -> never_autoSpanned h -> c_life c0 h = Some c -> new_like c = c0.
Proof.
  intros c0 h c Fr Ru NS L. destruct (life_data h c0 c Ru NS L) as [_ [-> _]]. destruct Fr; try reflexivity; destruct Ru as [X|[X|X]]; discriminate X.
Qed.

(** *** Refuted in general: registered once with a system for which it spans the horizon, the object stays a full-size
    entry.  1 state and 1 step (stacked size 2), then 2 states. *)
Definition ex46_ps1 : psys :=
  match ps_new (mlit [[1]]%Z) (mlit [[1]]%Z) (vlit [0]%Z) (vlit [0]%Z) 1 with
  | Ok p => match updateSystem p with Some q => q | None => p end | _ => ps_default end.
Definition ex46_c : constr := mkTraj (mlit [[1; 0]]%Z) (elit [fin 25]) true.
Definition ex46_b : constr := mkTrajB (elit [NInf; NInf]) (elit [fin 25; fin 25]).
Definition dirty (q : Z) : junk := Junk (fun _ _ _ => qz q) (fun _ _ => qz q) (fun _ _ => fin q).
Lemma ex46_ps1_ready : ready ex46_ps1.
Proof.
  unfold ex46_ps1. destruct (ps_new (mlit [[1]]%Z) (mlit [[1]]%Z) (vlit [0]%Z) (vlit [0]%Z) 1) as [p|e p|] eqn:E; [|discriminate E|discriminate E].
  pose proof E as E'. apply system_inv in E'. destruct E' as [W X]. destruct (updateSystem_ok p W) as [q [U _]]. rewrite U. eapply built_ready; eassumption.
Qed.
(** registered with the first system, then with [exps]; then one solve.  Also with a new object *)
Definition ex46_run (j : junk) (c : constr) : option (option constr * option constr) :=
  match initializeConstraint j0 ex46_ps1 c with
  | Ok c1 => match initializeConstraint j exps c1, initializeConstraint j exps (new_like c1) with
             | Ok c2, Ok d2 => Some (c_update exps c2, c_update exps d2) | _, _ => None end
  | _ => None end.

(** the second solve multiplies matrices of different sizes: undefined behaviour *)
Theorem C46_constraint_refuted : exists c0 ps1 ps2 j c1 c2 d2,
  fresh_constr c0 /\ reusable c0 /\ ready ps1 /\ ready ps2 /\ initializeConstraint j ps1 c0 = Ok c1 /\ initializeConstraint j ps2 c1 = Ok c2 /\
  c_update ps2 c2 = None /\ initializeConstraint j ps2 (new_like c1) = Ok d2 /\ c_update ps2 d2 <> None.
Proof.
  assert (B : match ex46_run j0 ex46_c with Some (None, Some _) => true | _ => false end = true) by (vm_compute; reflexivity).
  unfold ex46_run in B. exists ex46_c, ex46_ps1, exps, j0.
  destruct (initializeConstraint j0 ex46_ps1 ex46_c) as [c1|e c1|]; [|discriminate B|discriminate B]. exists c1.
  destruct (initializeConstraint j0 exps c1) as [c2|e c2|]; [|discriminate B|discriminate B]. exists c2.
  destruct (initializeConstraint j0 exps (new_like c1)) as [d2|e d2|]; [|discriminate B|discriminate B]. exists d2.
  destruct (c_update exps c2); [discriminate B|]. destruct (c_update exps d2); [|discriminate B].
  split; [constructor|]. split; [left; reflexivity|]. split; [exact ex46_ps1_ready|]. split; [exact exps_ready|]. repeat split. discriminate.
Qed.
(** a state bound: the rows of the steps after the first keep whatever was in the memory, here twice a different value *)
Theorem C46_bound_refuted : exists c0 ps1 ps2 c1, fresh_constr c0 /\ reusable c0 /\ ready ps1 /\ ready ps2 /\ initializeConstraint j0 ps1 c0 = Ok c1 /\
  exists c2 c2' e2 e2', initializeConstraint (dirty 5) ps2 c1 = Ok c2 /\ initializeConstraint (dirty 6) ps2 c1 = Ok c2' /\
    c_update ps2 c2 = Some e2 /\ c_update ps2 c2' = Some e2' /\ nrConstr e2 = nrConstr e2' /\ ~ veq (cb e2) (cb e2').
Proof.
  assert (B : match initializeConstraint j0 ex46_ps1 ex46_b with
              | Ok c1 => match initializeConstraint (dirty 5) exps c1, initializeConstraint (dirty 6) exps c1 with
                         | Ok c2, Ok c2' => match c_update exps c2, c_update exps c2' with
                            | Some e, Some e' => Nat.eqb (nrConstr e) (nrConstr e') && (3 <? vsize (cb e)) && negb (cmpb false (qz 5) (vget (cb e') 3)) && cmpb false (qz 5) (vget (cb e) 3)
                            | _, _ => false end
                         | _, _ => false end
              | _ => false end = true) by (vm_compute; reflexivity).
  exists ex46_b, ex46_ps1, exps.
  destruct (initializeConstraint j0 ex46_ps1 ex46_b) as [c1|e c1|]; [|discriminate B|discriminate B]. exists c1.
  split; [constructor|]. split; [right; right; reflexivity|]. split; [exact ex46_ps1_ready|]. split; [exact exps_ready|]. split; [reflexivity|].
  destruct (initializeConstraint (dirty 5) exps c1) as [c2|e c2|]; [|discriminate B|discriminate B].
  destruct (initializeConstraint (dirty 6) exps c1) as [c2'|e c2'|]; [|discriminate B|discriminate B].
  destruct (c_update exps c2) as [e2|] eqn:U; [|discriminate B]. destruct (c_update exps c2') as [e2'|] eqn:U'; [|discriminate B].
  exists c2, c2', e2, e2'. apply andb_true_iff in B. destruct B as [B B4]. apply andb_true_iff in B. destruct B as [B B3]. apply andb_true_iff in B. destruct B as [B1 B2].
  apply Nat.eqb_eq in B1. apply Nat.ltb_lt in B2. repeat (split; [assumption || reflexivity|]).
  intros [_ V]. rewrite (V 3 B2) in B4. rewrite B4 in B3. discriminate B3.
Qed.
(** the theorem applies: registered with a 2-step system, solved, registered with the 3-step system [exps], solved twice *)
Definition ex46_ps2 : psys :=
  match ps_new exA exB exd exx0 2 with
  | Ok p => match updateSystem p with Some q => q | None => p end | _ => ps_default end.
Definition ex46_ps3 : psys := match ps_new (mlit [[1]]%Z) (mlit [[1]]%Z) (vlit [0]%Z) (vlit [0]%Z) 3 with Ok p => p | _ => ps_default end.
Definition ex46_h : list c_event := [CRegister j0 ex46_ps2; CSolve ex46_ps2; CRegister j0 ex46_ps3; CSolve ex46_ps2].
(* the registration with [ex46_ps3] is rejected: 2 columns are neither 1 state nor 4 *)
Example C46_example :
  match c_life (mkMixed (mlit [[1; 0]]%Z) (mlit [[1]]%Z) (elit [fin 25]) true) ex46_h with
  | Some c => match initializeConstraint (dirty 3) exps c with
              | Ok d => match c_updates [exps; exps] d with
                        | Some e => Nat.eqb (nrConstr e) 3 && rows_holdb true 3 3 (at_ (cA e)) (vget (cb e)) (vget exU)
                                    && negb (rows_holdb true 3 3 (at_ (cA e)) (vget (cb e)) (vget (vlit [50; 0; 0]%Z)))
                        | None => false end
              | _ => false end
  | None => false end = true /\ ~ was_full_size (mkMixed (mlit [[1; 0]]%Z) (mlit [[1]]%Z) (elit [fin 25]) true) ex46_h.
Proof.
  split; [vm_compute; reflexivity|]. intros [h1 [j [ps [h2 [c1 [c2 [E [L [I O]]]]]]]]].
  assert (D : forall t, t ++ CRegister j ps :: h2 = ex46_h -> (t = [] /\ ps = ex46_ps2) \/ (t = [CRegister j0 ex46_ps2; CSolve ex46_ps2] /\ ps = ex46_ps3)).
  { intros t H. unfold ex46_h in H. destruct t as [|a [|b [|d [|f [|g t]]]]]; cbn in H; injection H; intros; subst; try discriminate; auto. }
  destruct (D h1 (eq_sym E)) as [[-> ->]|[-> ->]].
  - cbn in L. injection L as <-. apply O. split; reflexivity.
  - assert (K : ck c1 = KMixed /\ cols (cE c1) = 2 /\ cols (cG c1) = 1).
    { destruct (life_data [CRegister j0 ex46_ps2; CSolve ex46_ps2] (mkMixed (mlit [[1; 0]]%Z) (mlit [[1]]%Z) (elit [fin 25]) true) c1 (or_intror (or_introl eq_refl)) ltac:(intros k [H|[H|[]]]; discriminate) L) as [K [N _]].
      cbn in K. unfold new_like in N. rewrite K in N. cbn in N. injection N as _ HE HG _. rewrite HE, HG. auto. }
    destruct K as [K [A B]]. unfold initializeConstraint, mixed_init in I. rewrite K, A, B in I.
    destruct (negb _) in I; [discriminate|]. destruct (negb _) in I; [discriminate|]. cbn in I. discriminate.
Qed.

(** ** Costs *)
Lemma k_update_flags ps c c' : k_update ps c = Some c' -> k_same c c'.
Proof.
  unfold k_update, trajC_update, targetC_update, ctrlC_update, mixedC_update. destruct (kk c) eqn:K; [destruct (kfull c)| |destruct (kfull c)|destruct (kfull c)];
    repeat match goal with |- context [obind ?x _] => destruct x; cbn [obind]; [|discriminate] end;
    repeat match goal with |- match ?v with (_, _) => _ end = _ -> _ => destruct v end;
    repeat match goal with |- context [obind ?x _] => destruct x; cbn [obind]; [|discriminate] end;
    intro H; injection H as <-; repeat split.
Qed.
Lemma span_vec_size {T} (jk jk' : nat -> T) (v w : vec T) md : vsize v = vsize w ->
  match spanVector jk v md, spanVector jk' w md with
  | Ok a, Ok b => vsize a = vsize b
  | Throw e a, Throw e' b => e = e' /\ a = v /\ b = w
  | UB, UB => True
  | _, _ => False
  end.
Proof.
  intro E. destruct (Nat.eq_dec (vsize v) 0) as [Z|Z].
  - destruct (Z.eq_dec md 0) as [->|N].
    + unfold spanVector. rewrite <- E, Z. cbn. exact E.
    + rewrite !spanVector_empty by congruence. exact I.
  - destruct (Z.eq_dec md (Z.of_nat (vsize v))) as [->|N].
    + rewrite spanVector_same, E, spanVector_same. reflexivity.
    + destruct (Znumtheory.Zdivide_dec (Z.of_nat (vsize v)) md) as [D|D].
      * destruct (Z_lt_le_dec md 0) as [L|L].
        -- unfold spanVector. rewrite <- E. destruct (Z.eqb_spec md (Z.of_nat (vsize v))); [congruence|]. destruct (Nat.eqb_spec (vsize v) 0); [congruence|].
           destruct (negb _); [auto|]. destruct (Z.ltb_spec md 0); [exact I|lia].
        -- destruct D as [q D]. assert (Q : (0 <= q)%Z) by nia.
           replace md with (Z.of_nat (Z.to_nat q * vsize v)) by (rewrite Nat2Z.inj_mul, Z2Nat.id by exact Q; lia).
           assert (Q1 : Z.to_nat q <> 1) by (intro X; apply N; subst md; rewrite <- (Z2Nat.id q Q), X; lia).
           destruct (spanVector_ok jk v (Z.to_nat q) Z Q1) as [a [-> [Sa _]]].
           rewrite E in *. destruct (spanVector_ok jk' w (Z.to_nat q) Z Q1) as [b [-> [Sb _]]]. congruence.
      * rewrite (spanVector_throw jk v md Z N D). rewrite E in *. rewrite (spanVector_throw jk' w md Z N D). auto.
Qed.
(** what every event keeps *)
Definition k_kept (c c' : cost) : Prop := kk c' = kk c /\ (vsize (kw c) = vsize (kp c) -> vsize (kw c') = vsize (kp c')).
Lemma span_pw_kept j c M N md c' : span_pw j c M N md = Ok c' \/ (exists e, span_pw j c M N md = Throw e c') -> k_kept c c' /\ kfull c' = kfull c.
Proof.
  unfold span_pw. intro H. assert (V := span_vec_size (jvec j 0) (jvec j 1) (kp c) (kw c) md). unfold k_kept.
  destruct (spanVector (jvec j 0) (kp c) md) as [p|e p|].
  - destruct (spanVector (jvec j 1) (kw c) md) as [w|e w|]; [| |destruct H as [H|[e H]]; discriminate].
    + destruct H as [H|[e H]]; [|discriminate]. injection H as <-. cbn. split; [split; [reflexivity|]|reflexivity]. intro E. symmetry. apply V. congruence.
    + destruct H as [H|[x H]]; [discriminate|]. injection H as _ <-. cbn. split; [split; [reflexivity|]|reflexivity]. intro E. destruct (V ltac:(congruence)).
  - destruct H as [H|[x H]]; [discriminate|]. injection H as _ <-. cbn. split; [split; [reflexivity|]|reflexivity]. intro E.
    destruct (spanVector (jvec j 1) (kw c) md) as [w|e' w|]; [destruct (V ltac:(congruence))| |destruct (V ltac:(congruence))]. destruct (V ltac:(congruence)) as [_ [-> _]]. exact E.
  - destruct H as [H|[e H]]; discriminate.
Qed.
Lemma k_span_kept j c c' : k_autoSpan j c = Ok c' \/ (exists e, k_autoSpan j c = Throw e c') -> k_kept c c' /\ kfull c' = kfull c.
Proof.
  unfold k_autoSpan. destruct (kk c) eqn:K; intro H.
  - unfold trajC_autoSpan in H. cbv zeta in H. destruct (spanMatrix _ _ _) in H; [apply span_pw_kept in H; exact H| |destruct H as [H|[e H]]; discriminate].
    destruct H as [H|[e' H]]; [discriminate|]. injection H as _ <-. split; [split; [reflexivity|auto]|reflexivity].
  - destruct H as [H|[e H]]; [|discriminate]. injection H as <-. split; [split; auto|reflexivity].
  - unfold ctrlC_autoSpan in H. cbv zeta in H. destruct (spanMatrix _ _ _) in H; [apply span_pw_kept in H; exact H| |destruct H as [H|[e H]]; discriminate].
    destruct H as [H|[e' H]]; [discriminate|]. injection H as _ <-. split; [split; [reflexivity|auto]|reflexivity].
  - unfold mixedC_autoSpan in H. cbv zeta in H. destruct (spanMatrix (kM c) _ _) in H; [| |destruct H as [H|[e H]]; discriminate].
    + destruct (spanMatrix _ _ _) in H; [apply span_pw_kept in H; exact H| |destruct H as [H|[e H]]; discriminate].
      destruct H as [H|[e' H]]; [discriminate|]. injection H as _ <-. split; [split; [reflexivity|auto]|reflexivity].
    + destruct H as [H|[e' H]]; [discriminate|]. injection H as _ <-. split; [split; [reflexivity|auto]|reflexivity].
Qed.
Lemma k_init_kept j ps c c' : initializeCost j ps c = Ok c' \/ (exists e, initializeCost j ps c = Throw e c') ->
  k_kept c c' /\ (kfull c' = true -> kfull c = true \/ (initializeCost j ps c = Ok c' /\ ~ one_step_cost ps c)).
Proof.
  unfold initializeCost, k_kept, one_step_cost.
  destruct (kk c) eqn:K; [unfold trajC_init|unfold targetC_init|unfold ctrlC_init|unfold mixedC_init]; cbv zeta; cbn [kM kN kp kw kQ kc kE kf k_resize set_qp].
  - destruct (negb _); [intros [H|[er H]]; [discriminate|injection H as _ <-]; cbn; auto|].
    destruct (Nat.eqb_spec (cols (kM c)) (xDim ps)); [intros [H|[er H]]; [injection H as <-|discriminate]; cbn; auto|].
    destruct (Nat.eqb _ _); intros [H|[er H]]; try discriminate; [injection H as <-|injection H as _ <-]; cbn; auto.
  - destruct (negb _); [intros [H|[er H]]; [discriminate|injection H as _ <-]; cbn; auto|].
    destruct (negb _); intros [H|[er H]]; try discriminate; [injection H as _ <-|injection H as <-]; cbn; auto.
  - destruct (negb _); [intros [H|[er H]]; [discriminate|injection H as _ <-]; cbn; auto|].
    destruct (Nat.eqb_spec (cols (kN c)) (uDim ps)); [intros [H|[er H]]; [injection H as <-|discriminate]; cbn; auto|].
    destruct (Nat.eqb _ _); intros [H|[er H]]; try discriminate; [injection H as <-|injection H as _ <-]; cbn; auto.
  - destruct (negb _); [intros [H|[er H]]; [discriminate|injection H as _ <-]; cbn; auto|].
    destruct (negb _); [intros [H|[er H]]; [discriminate|injection H as _ <-]; cbn; auto|].
    destruct (Nat.eqb_spec (cols (kM c)) (xDim ps)), (Nat.eqb_spec (cols (kN c)) (uDim ps)); cbn [andb];
      try (intros [H|[er H]]; [injection H as <-|discriminate]; cbn; auto; fail);
      (destruct (Nat.eqb _ _ && Nat.eqb _ _); intros [H|[er H]]; try discriminate; [injection H as <-|injection H as _ <-]; cbn; split; auto; intros; right; split; auto; tauto).
Qed.
Lemma k_was_full_cons c e c1 t : (k_happens c e = Ok c1 \/ exists x, k_happens c e = Throw x c1) -> was_full_size_cost c1 t -> was_full_size_cost c (e :: t).
Proof.
  intros H [h1 [j [ps [h2 [d1 [d2 [-> [L [I O]]]]]]]]]. exists (e :: h1), j, ps, h2, d1, d2. split; [reflexivity|]. split; [|auto].
  cbn [k_life]. destruct H as [->|[x ->]]; exact L.
Qed.
Lemma k_life_full : forall h c c', k_life c h = Some c' -> k_kept c c' /\ (kfull c' = true -> kfull c = true \/ was_full_size_cost c h).
Proof.
  induction h as [|e t IH]; intros c c' H; cbn [k_life] in H.
  - injection H as <-. split; [split; auto|auto].
  - assert (G : exists c1, (k_happens c e = Ok c1 \/ exists x, k_happens c e = Throw x c1) /\ k_life c1 t = Some c').
    { destruct (k_happens c e) as [c1|x c1|]; [exists c1; eauto|exists c1; eauto|discriminate]. }
    destruct G as [c1 [E L]]. destruct (IH c1 c' L) as [[K V] F].
    assert (S : k_kept c c1 /\ (kfull c1 = true -> kfull c = true \/ was_full_size_cost c (e :: t))).
    { destruct e as [j ps|ps|j|w|x]; cbn [k_happens] in E.
      - destruct (k_init_kept j ps c c1 E) as [Kp Q]. split; [exact Kp|]. intro X. destruct (Q X) as [Y|[Y Z]]; [left; exact Y|right].
        exists [], j, ps, t, c, c1. repeat split; assumption.
      - destruct (k_update ps c) as [c2|] eqn:U; cbn in E; [|destruct E as [E|[x E]]; discriminate]. destruct E as [E|[x E]]; [|discriminate].
        injection E as <-. destruct (k_update_flags ps c c2 U) as [S1 [S2 [S3 [S4 [S5 S6]]]]]. unfold k_kept. rewrite S1, S2, S5, S6. auto.
      - destruct (k_span_kept j c c1 E) as [Kp ->]. auto.
      - destruct (C21_only_weights_change c w c1) as [S1 [_ [_ [S4 [S5 [S6 _]]]]]]; [exists (k_weights c w); split; [reflexivity|exact E]|].
        unfold k_kept. rewrite S1, S4, S5, S6. auto.
      - destruct E as [E|[y E]]; [|discriminate]. injection E as <-. unfold k_kept. cbn. auto. }
    destruct S as [[K1 V1] F1]. split; [split; [congruence|auto]|]. intro Q. destruct (F Q) as [Y|Y]; [apply F1; exact Y|]. right. eapply k_was_full_cons; eassumption.
Qed.

Definition k_unfull (c : cost) : cost := Cost (kk c) false (kM c) (kN c) (kp c) (kw c) (kQ c) (kc c) (kE c) (kf c).
Lemma k_init_unfull j ps c : (kfull c = true -> ~ one_step_cost ps c) ->
  match initializeCost j ps c, initializeCost j ps (k_unfull c) with
  | Ok a, Ok b => a = b
  | Throw e _, Throw e' _ => e = e'
  | _, _ => False
  end.
Proof.
  intro F. destruct (kfull c) eqn:Q.
  - specialize (F eq_refl). unfold initializeCost, one_step_cost in *. destruct (kk c) eqn:K; cbn [kk k_unfull]; rewrite ?K; [unfold trajC_init|tauto|unfold ctrlC_init|unfold mixedC_init];
      cbv zeta; cbn [kM kN kp kw kQ kc kE kf k_resize set_qp k_unfull].
    + destruct (negb _); [reflexivity|]. destruct (Nat.eqb_spec (cols (kM c)) (xDim ps)); [contradiction|]. destruct (Nat.eqb _ _); reflexivity.
    + destruct (negb _); [reflexivity|]. destruct (Nat.eqb_spec (cols (kN c)) (uDim ps)); [contradiction|]. destruct (Nat.eqb _ _); reflexivity.
    + destruct (negb _); [reflexivity|]. destruct (negb _); [reflexivity|].
      destruct (Nat.eqb_spec (cols (kM c)) (xDim ps)), (Nat.eqb_spec (cols (kN c)) (uDim ps)); cbn [andb]; try (exfalso; tauto); destruct (Nat.eqb _ _ && Nat.eqb _ _); reflexivity.
  - assert (E : k_unfull c = c) by (destruct c; unfold k_unfull; cbn in *; rewrite Q; reflexivity). rewrite E.
    destruct (C22_initialize j ps c) as [V W]. destruct (initializeCost j ps c) eqn:I; try reflexivity.
    revert I. unfold initializeCost. destruct (kk c); [unfold trajC_init|unfold targetC_init|unfold ctrlC_init|unfold mixedC_init]; cbv zeta;
      repeat match goal with |- context [if ?b then _ else _] => destruct b end; discriminate.
Qed.

(** two objects with the same inputs *)
Record krel (ps : psys) (a b : cost) : Prop := {
  kr_k : kk a = kk b; kr_M : kk a <> ControlCost -> kM a = kM b; kr_N : kk a = ControlCost \/ kk a = MixedCost -> kN a = kN b; kr_p : kp a = kp b; kr_w : kw a = kw b;
  kr_full : kk a <> TargetCost -> kfull a = kfull b;
  kr_sa : k_shape ps a; kr_sb : k_shape ps b;
  kr_acc : k_acc a = true ->
    (forall i j, i < fullUDim ps -> j < fullUDim ps -> at_ (kQ a) i j = at_ (kQ b) i j) /\
    (forall i j, i < xDim ps -> j < fullUDim ps -> at_ (kE a) i j = at_ (kE b) i j) /\
    (forall j, j < fullUDim ps -> vget (kf a) j = vget (kf b) j) /\ (forall j, j < fullUDim ps -> vget (kc a) j = vget (kc b) j)
}.
Lemma krel_acc a b : kk a = kk b -> (kk a <> TargetCost -> kfull a = kfull b) -> k_acc a = k_acc b /\ k_acc_c a = k_acc_c b.
Proof. intros K F. unfold k_acc, k_acc_c. rewrite <- K. destruct (kk a); try (rewrite F by discriminate); auto. Qed.
Lemma krel_forms ps a b : krel ps a b -> kQf ps a = kQf ps b /\ kEf ps a = kEf ps b /\ kff ps a = kff ps b.
Proof.
  intros [K M N P W F _ _ _]. unfold kQf, kEf, kff, kK, kR, kT, kH, kG. rewrite <- K, <- P, <- W.
  destruct (kk a); rewrite ?F, ?M, ?N by (discriminate || auto); auto.
Qed.
Lemma krel_dims p q a b : same_dims p q -> krel p a b -> krel q a b.
Proof.
  intros D [K M N P W F Sa Sb A]. split; try assumption; try (eapply k_shape_dims; eassumption).
  destruct D as [H1 [H2 [H3 [H4 [H5 H6]]]]]. rewrite H1, H6 in A. exact A.
Qed.
Lemma krel_update ps (R : ready ps) a b : krel ps a b ->
  exists a' b', k_update ps a = Some a' /\ k_update ps b = Some b' /\ krel ps a' b' /\ same_quadratic a' b' /\ kp a' = kp a.
Proof.
  intro KR. pose proof (krel_forms ps a b KR) as [FQ [FE FF]]. destruct KR as [K M N P W F Sa Sb A].
  destruct (k_update_ok ps R a Sa) as [a' [Ea [[A1 [A2 [A3 [A4 [A5 A6]]]]] [Sa' [Qa [Ee [Fa Ca]]]]]]].
  destruct (k_update_ok ps R b Sb) as [b' [Eb [[B1 [B2 [B3 [B4 [B5 B6]]]]] [Sb' [Qb [Eeb [Fb Cb]]]]]]].
  destruct (krel_acc a b K F) as [AC ACc].
  assert (AI : k_acc_c a = true -> k_acc a = true) by (unfold k_acc, k_acc_c; destruct (kk a); auto; discriminate).
  assert (G1 : forall i j, i < fullUDim ps -> j < fullUDim ps -> at_ (kQ a') i j = at_ (kQ b') i j).
  { intros i j Hi Hj. rewrite (Qa i j Hi Hj), (Qb i j Hi Hj), FQ, <- AC. f_equal. destruct (k_acc a); [|reflexivity]. apply A; auto. }
  assert (G2 : forall i j, i < xDim ps -> j < fullUDim ps -> at_ (kE a') i j = at_ (kE b') i j).
  { intros i j Hi Hj. rewrite (Ee i j Hi Hj), (Eeb i j Hi Hj), FE, <- AC. f_equal. destruct (k_acc a); [|reflexivity]. apply A; auto. }
  assert (G3 : forall j, j < fullUDim ps -> vget (kf a') j = vget (kf b') j).
  { intros j Hj. rewrite (Fa j Hj), (Fb j Hj), FF, <- AC. f_equal. destruct (k_acc a); [|reflexivity]. apply A; auto. }
  assert (G4 : forall j, j < fullUDim ps -> vget (kc a') j = vget (kc b') j).
  { intros j Hj. rewrite (Ca j Hj), (Cb j Hj), <- ACc, (G3 j Hj). f_equal.
    - destruct (k_acc_c a); [|reflexivity]. apply A; auto.
    - f_equal. apply sum_ext. intros i Hi. rewrite (G2 i j Hi Hj). reflexivity. }
  exists a', b'. split; [exact Ea|]. split; [exact Eb|]. split; [|split; [|exact A5]].
  - split; try congruence; try assumption.
    + rewrite A1, A3, B3. exact M.
    + rewrite A1, A4, B4. exact N.
    + intro NT. rewrite A2, B2. apply F. congruence.
    + intros _. auto.
  - destruct Sa' as [[Z1 [Z2 [Z3 [Z4 [Z5 Z6]]]]] _]. destruct Sb' as [[Y1 [Y2 [Y3 [Y4 [Y5 Y6]]]]] _].
    unfold same_quadratic, meq, veq. rewrite Z1, Z2, Z3, Z4, Z5, Z6, Y1, Y2, Y3, Y4, Y5, Y6. repeat split; auto.
Qed.
Lemma krel_w ps a b w : vsize w = vsize (kp a) -> krel ps a b -> krel ps (set_w a w) (set_w b w).
Proof. intros E [K M N P W F Sa Sb A]. split; try assumption; try reflexivity; apply k_shape_w; try assumption. congruence. Qed.
Lemma krel_updates ps0 : forall h a b, krel ps0 a b -> cost_history ps0 (vsize (kp a)) h ->
  exists a' b', k_updates h a = Some a' /\ k_updates h b = Some b' /\ krel ps0 a' b' /\ (h <> [] -> same_quadratic a' b').
Proof.
  induction h as [|[w p] t IH]; intros a b KR H; cbn [k_updates].
  - exists a, b. split; [reflexivity|]. split; [reflexivity|]. split; [exact KR|congruence].
  - inversion H as [|? ? [Hw [R D]] Ht]; subst. cbn [fst snd] in Hw, R, D.
    destruct (krel_update p R (set_w a w) (set_w b w)) as [a1 [b1 [E1 [E2 [KR1 [SQ Kp]]]]]].
    { eapply krel_dims; [apply same_dims_sym; exact D|]. apply krel_w; assumption. }
    rewrite E1, E2. cbn [obind]. cbn in Kp.
    destruct (IH a1 b1) as [a2 [b2 [E3 [E4 [KR2 S2]]]]]; [eapply krel_dims; eassumption|rewrite Kp; exact Ht|].
    exists a2, b2. split; [exact E3|]. split; [exact E4|]. split; [exact KR2|]. intros _.
    destruct t; [cbn in E3, E4; injection E3 as <-; injection E4 as <-; exact SQ|apply S2; discriminate].
Qed.
Lemma krel_init j1 j2 ps a b a' b' : fresh_ok a -> fresh_ok b -> kk a = kk b ->
  (kk a <> ControlCost -> kM a = kM b) -> (kk a = ControlCost \/ kk a = MixedCost -> kN a = kN b) -> kp a = kp b -> kw a = kw b ->
  initializeCost j1 ps a = Ok a' -> initializeCost j2 ps b = Ok b' -> krel ps a' b'.
Proof.
  intros Fa Fb K M N P W Ia Ib.
  destruct (k_init_ok j1 ps a a' Fa Ia) as [A1 [A2 [A3 [A4 [A5 [A6 [A7 A8]]]]]]]. destruct (k_init_ok j2 ps b b' Fb Ib) as [B1 [B2 [B3 [B4 [B5 [B6 [B7 B8]]]]]]].
  assert (F : kk a' <> TargetCost -> kfull a' = kfull b').
  { intro NT. unfold k_entry in A7, B7. rewrite B1, B2, B3, <- K in B7. rewrite A1, A2, A3 in A7. rewrite A1 in NT.
    destruct (kk a); try congruence; rewrite ?M, ?N in A7 by (discriminate || auto); congruence. }
  split; try congruence.
  - rewrite A1, A2, B2. exact M.
  - rewrite A1, A3, B3. exact N.
  - exact F.
  -
  intro Ac. assert (Bc : k_acc b' = true) by (rewrite <- (proj1 (krel_acc a' b' ltac:(congruence) F)); exact Ac).
  destruct (A8 Ac) as [Z1 [Z2 [Z3 Z4]]]. destruct (B8 Bc) as [Y1 [Y2 [Y3 Y4]]].
  repeat split; intros; [rewrite Z1, Y1|rewrite Z2, Y2|rewrite Z3, Y3|rewrite Z4, Y4]; auto.
Qed.

Theorem C46_cost_reused_partial : forall c0 h c ps2 j1 j2 us w ps,
  fresh_cost c0 -> k_life c0 h = Some c -> (was_full_size_cost c0 h -> ~ one_step_cost ps2 c) ->
  cost_history ps2 (vsize (kp c)) (us ++ [(w, ps)]) ->
  exists d0, new_cost_like c = Ok d0 /\
    match initializeCost j1 ps2 c, initializeCost j2 ps2 d0 with
    | Ok d, Ok d' => exists e e', k_updates (us ++ [(w, ps)]) d = Some e /\ k_updates (us ++ [(w, ps)]) d' = Some e' /\ same_quadratic e e'
    | Throw x _, Throw y _ => x = y
    | _, _ => False
    end.
Proof.
  intros c0 h c ps2 j1 j2 us w ps Fr L WF H. destruct (k_life_full h c0 c L) as [[K V] F]. destruct (fresh_cost_ok c0 Fr) as [F0 V0]. specialize (V V0).
  set (n0 := match kk c with TrajectoryCost => mkTrajC (kM c) (kp c) | TargetCost => mkTargetC (kM c) (kp c)
             | ControlCost => mkCtrlC (kN c) (kp c) | MixedCost => mkMixedC (kM c) (kN c) (kp c) end).
  assert (D : new_cost_like c = Ok (set_w n0 (kw c))).
  { unfold new_cost_like. fold n0. destruct (C21_weights n0 (kw c)) as [Q _]. apply Q. unfold n0. destruct (kk c); exact V. }
  exists (set_w n0 (kw c)). split; [exact D|].
  assert (FF : kfull c = true -> ~ one_step_cost ps2 c). { intro Q. apply WF. destruct (F Q); [congruence|assumption]. }
  pose proof (k_init_unfull j1 ps2 c FF) as U. set (a0 := k_unfull c) in *. set (b0 := set_w n0 (kw c)).
  assert (VS : valid_cost_shape ps2 a0 <-> valid_cost_shape ps2 b0).
  { unfold a0, b0, n0, valid_cost_shape, k_unfull, set_w, set_data. cbn. destruct (kk c); cbn; tauto. }
  assert (Fa : fresh_ok a0) by (split; [reflexivity|exact V]).
  assert (Fb : fresh_ok b0) by (unfold b0, n0; split; destruct (kk c); try reflexivity; exact V).
  assert (Va : initializeCost j1 ps2 a0 <> UB /\ initializeCost j2 ps2 b0 <> UB).
  { split; (revert Fa Fb; unfold initializeCost; intros _ _; destruct (kk _); [unfold trajC_init|unfold targetC_init|unfold ctrlC_init|unfold mixedC_init]; cbv zeta;
      repeat match goal with |- context [if ?b then _ else _] => destruct b end; discriminate). }
  destruct Va as [Ua Ub]. destruct (C22_initialize j1 ps2 a0) as [Pa Na]. destruct (C22_initialize j2 ps2 b0) as [Pb Nb].
  destruct (initializeCost j1 ps2 a0) as [a'|ea a'|] eqn:Ia, (initializeCost j2 ps2 b0) as [b'|eb b'|] eqn:Ib; try (exfalso; congruence).
  - destruct (initializeCost j1 ps2 c) as [d| |]; try contradiction. subst d.
    destruct (krel_updates ps2 (us ++ [(w, ps)]) a' b') as [e [e' [E1 [E2 [_ S]]]]].
    + eapply (krel_init j1 j2 ps2 a0 b0); try eassumption; unfold a0, b0, n0; cbn; destruct (kk c); cbn; auto; try (intros; congruence); intros [X|X]; discriminate.
    + destruct (k_init_ok j1 ps2 a0 a' Fa Ia) as [_ [_ [_ [-> _]]]]. exact H.
    + exists e, e'. split; [exact E1|]. split; [exact E2|]. apply S. destruct us; discriminate.
  - exfalso. assert (X : valid_cost_shape ps2 a0 -> False).
    { intro Q. apply VS in Q. destruct (Pb Q) as [z [Y _]]. discriminate Y. }
    destruct (Na X) as [z [Y _]]. discriminate Y.
  - exfalso. assert (X : valid_cost_shape ps2 b0 -> False).
    { intro Q. apply VS in Q. destruct (Pa Q) as [z [Y _]]. discriminate Y. }
    destruct (Nb X) as [z [Y _]]. discriminate Y.
  - destruct (initializeCost j1 ps2 c) as [d|x d|]; try contradiction. subst x.
    assert (X : ~ valid_cost_shape ps2 a0) by (intro Q; destruct (Pa Q) as [z [Y _]]; discriminate Y).
    destruct (Na X) as [z [Y _]]. injection Y as Y _. rewrite VS in X. destruct (Nb X) as [z' [Y' _]]. injection Y' as Y' _. congruence.
Qed.

(** *** Refuted in general, as for constraints: a cost that once spanned the horizon stays a full-size entry *)
Definition ex46_k : cost := mkTrajC (mlit [[1; 0]]%Z) (vlit [2]%Z).
Definition ex46_krun (c : cost) : option (option cost * option cost) :=
  match initializeCost j0 ex46_ps1 c with
  | Ok c1 => match new_cost_like c1 with
             | Ok d0 => match initializeCost j0 exps c1, initializeCost j0 exps d0 with
                        | Ok c2, Ok d2 => Some (k_update exps c2, k_update exps d2) | _, _ => None end
             | _ => None end
  | _ => None end.
Theorem C46_cost_refuted : exists c0 ps1 ps2 j c1 d0 c2 d2,
  fresh_cost c0 /\ ready ps1 /\ ready ps2 /\ initializeCost j ps1 c0 = Ok c1 /\ new_cost_like c1 = Ok d0 /\
  initializeCost j ps2 c1 = Ok c2 /\ k_update ps2 c2 = None /\ initializeCost j ps2 d0 = Ok d2 /\ k_update ps2 d2 <> None.
Proof.
  assert (B : match ex46_krun ex46_k with Some (None, Some _) => true | _ => false end = true) by (vm_compute; reflexivity).
  unfold ex46_krun in B. exists ex46_k, ex46_ps1, exps, j0.
  destruct (initializeCost j0 ex46_ps1 ex46_k) as [c1|e c1|]; [|discriminate B|discriminate B]. exists c1.
  destruct (new_cost_like c1) as [d0|e d0|]; [|discriminate B|discriminate B]. exists d0.
  destruct (initializeCost j0 exps c1) as [c2|e c2|]; [|discriminate B|discriminate B]. exists c2.
  destruct (initializeCost j0 exps d0) as [d2|e d2|]; [|discriminate B|discriminate B]. exists d2.
  destruct (k_update exps c2); [discriminate B|]. destruct (k_update exps d2); [|discriminate B].
  split; [constructor|]. split; [exact ex46_ps1_ready|]. split; [exact exps_ready|]. repeat split. discriminate.
Qed.
(** a life that meets the hypotheses: 2-step system, new weight, a solve, a rejected registration; then [exps] *)
Definition ex46_kh : list k_event := [KRegister j0 ex46_ps2; KWeight (qz 4); KSolve ex46_ps2; KRegister j0 ex46_ps3].
Example C46_cost_example :
  match k_life ex46_k ex46_kh with
  | Some c => match new_cost_like c with
              | Ok d0 => match initializeCost (dirty 3) exps c, initializeCost (dirty 7) exps d0 with
                         | Ok d, Ok d' => match k_updates [(kw c, exps)] d, k_updates [(kw c, exps)] d' with
                                          | Some e, Some e' => forallb (fun i => forallb (fun j => qeqb (at_ (kQ e) i j) (at_ (kQ e') i j)) (seq 0 3)) (seq 0 3)
                                                               && negb (qeqb (at_ (kQ e) 0 0) 0%Qc)
                                          | _, _ => false end
                         | _, _ => false end
              | _ => false end
  | None => false end = true /\ ~ was_full_size_cost ex46_k ex46_kh.
Proof.
  split; [vm_compute; reflexivity|]. intros [h1 [j [ps [h2 [c1 [c2 [E [L [I O]]]]]]]]].
  assert (D : forall t, t ++ KRegister j ps :: h2 = ex46_kh -> (t = [] /\ ps = ex46_ps2) \/ (t = [KRegister j0 ex46_ps2; KWeight (qz 4); KSolve ex46_ps2] /\ ps = ex46_ps3)).
  { intros t H. unfold ex46_kh in H. destruct t as [|a [|b [|d [|f [|g t]]]]]; cbn in H; injection H; intros; subst; try discriminate; auto. }
  destruct (D h1 (eq_sym E)) as [[-> ->]|[-> ->]].
  - cbn in L. injection L as <-. apply O. reflexivity.
  - assert (B : match k_life ex46_k [KRegister j0 ex46_ps2; KWeight (qz 4); KSolve ex46_ps2] with
                | Some c => match kk c with TrajectoryCost => Nat.eqb (cols (kM c)) 2 | _ => false end | None => false end = true) by (vm_compute; reflexivity).
    rewrite L in B. unfold initializeCost in I. destruct (kk c1); try discriminate B. apply Nat.eqb_eq in B. unfold trajC_init in I. cbv zeta in I.
    cbn [kM kp k_resize set_qp] in I. destruct (negb _) in I; [discriminate|]. rewrite B in I. cbn in I. discriminate.
Qed.
Print Assumptions C46_constraint_reused_partial.
Print Assumptions C46_data_kept.
Print Assumptions C46_constraint_refuted.
Print Assumptions C46_bound_refuted.
Print Assumptions C46_cost_reused_partial.
Print Assumptions C46_cost_refuted.
