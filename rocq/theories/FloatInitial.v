(** FloatInitial.v -- C72: the problem of one solve of an InitialStateLMPC that rounds, in terms of what the user gave. *)
From Coq Require Import Qcabs.
From Verif Require Import Base Eigen Spec Preview SpecApi PreviewProofs AutoSpan AutoSpanProofs Constraints ConstraintProofs
  SpecConstraints ConstraintMeaning Checkers Costs SpecCosts CostProofs CostMeaning Properties_Costs Controller Registry SpecController Assembly
  Results SpecProtocol Protocol Properties_Protocol SpecEndToEnd SpanData Properties_Registry EndToEnd EndToEndQP EndToEndRows EndToEndMain
  Convex Properties_EndToEnd Determined StateExt InitialState.
From Verif Require Import Floats SpecFloats FloatProofs FloatPreview FloatConstraints FloatRows Properties_Floats
  FloatCosts SpecFloatCosts FloatCostProofs FloatCostRun FloatController SpecFloatRun FloatProtocol FloatTrace FloatMeaning FloatValue FloatSolve
  SpecFloatInitial.
Open Scope nat_scope.
Open Scope list_scope.

(** ** The blocks of the problem *)

Lemma f_addBlock_inv F t m0 r c nr nc e M : f_addBlock F t m0 r c nr nc e = Some M ->
  rows M = rows m0 /\ cols M = cols m0 /\
  forall i j, at_ M i j = if (r <=? i) && (i <? r + nr) && (c <=? j) && (j <? c + nc)
    then F (i - r :: j - c :: t) [at_ m0 (r + (i - r)) (c + (j - c)); at_ e (i - r) (j - c)] [] else at_ m0 i j.
Proof.
  unfold f_addBlock. intro H. destruct (block m0 r c nr nc) as [b|] eqn:B; [|discriminate H]. cbn [obind] in H.
  destruct (Nat.eqb (rows e) nr && Nat.eqb (cols e) nc); [|discriminate H]. cbn [obind] in H.
  apply setBlock_inv in H. destruct H as [_ [_ [_ [_ ->]]]]. apply block_inv in B. destruct B as [_ [_ ->]]. cbn [rows cols at_]. auto.
Qed.
Lemma f_is_corner_inv F inv xd fu R Q Q' : f_is_corner F inv xd fu R Q = Some Q' -> rows Q = xd + fu -> cols Q = xd + fu ->
  rows Q' = rows Q /\ cols Q' = cols Q /\
  (forall i j, xd <= j -> j < xd + fu -> i < xd + fu -> at_ Q' i j = at_ Q i j) /\
  (forall i j, xd <= i -> i < xd + fu -> j < xd -> at_ Q' i j = at_ Q j i).
Proof.
  unfold f_is_corner. intros H RQ CQ. destruct ((fu <=? rows Q) && _ && _ && _); [|discriminate H].
  destruct (block Q 0 _ xd fu) as [E|] eqn:E0; [|discriminate H]. cbn [obind] in H.
  destruct (setBlock Q _ 0 fu xd _) as [Q1|] eqn:E1; [|discriminate H]. cbn [obind] in H.
  destruct (block Q1 0 _ xd fu) as [E1'|] eqn:E2; [|discriminate H]. cbn [obind] in H.
  destruct (block Q1 _ _ fu fu) as [Quu|] eqn:E3; [|discriminate H]. cbn [obind] in H.
  destruct (f_mmul F _ _ _) as [eq|]; [|discriminate H]. cbn [obind] in H.
  destruct (f_mmadd F _ _ _ _) as [tl|]; [|discriminate H]. cbn [obind] in H.
  apply block_inv in E0 as [_ [_ ->]]. apply setBlock_inv in E1 as [_ [_ [_ [_ ->]]]]. apply setBlock_inv in H as [_ [_ [_ [_ ->]]]].
  cbn [rows cols at_ mtrans]. split; [reflexivity|]. split; [reflexivity|]. rewrite RQ, CQ. split; intros i j H1 H2 H3.
  - change (0 <=? j) with true. rewrite (proj2 (Nat.ltb_ge j (0 + xd))) by lia. rewrite !andb_false_r. reflexivity.
  - rewrite (proj2 (Nat.ltb_ge i (0 + xd))) by lia. rewrite andb_false_r. cbn [andb].
    rewrite (proj2 (Nat.leb_le (xd + fu - fu) i)), (proj2 (Nat.ltb_lt i (xd + fu - fu + fu))), (proj2 (Nat.ltb_lt j (0 + xd))) by lia.
    cbn [andb Nat.leb]. f_equal; lia.
Qed.
Record is_near (u : Qc) (lev xd fu : nat) (s : mx * vec Qc) (qx qm ex em : nat -> nat -> Qc) (fx fm : nat -> Qc) : Prop := {
  in_r : rows (fst s) = xd + fu;
  in_c : cols (fst s) = xd + fu;
  in_v : vsize (snd s) = xd + fu;
  in_q : forall i j, i < fu -> j < fu -> near u lev (at_ (fst s) (xd + i) (xd + j)) (qx i j) (qm i j);
  in_e : forall i j, i < xd -> j < fu -> near u lev (at_ (fst s) i (xd + j)) (ex i j) (em i j);
  in_f : forall j, j < fu -> near u lev (vget (snd s) (xd + j)) (fx j) (fm j)
}.
Definition k_near (u : Qc) (lev xd fu : nat) (c : cost) (qx qm ex em : nat -> nat -> Qc) (fx fm : nat -> Qc) : Prop :=
  (forall i j, i < fu -> j < fu -> near u lev (at_ (kQ c) i j) (qx i j) (qm i j)) /\
  (forall i j, i < xd -> j < fu -> near u lev (at_ (kE c) i j) (ex i j) (em i j)) /\
  (forall j, j < fu -> near u lev (vget (kf c) j) (fx j) (fm j)).
Lemma f_is_sum_near u F ps (wk : nat -> cost) lev (qx qm ex em : nat -> nat -> nat -> Qc) (fx fm : nat -> nat -> Qc) :
  accurate u F -> forall l,
  (forall k, In k l -> k_near u lev (xDim ps) (fullUDim ps) (wk k) (qx k) (qm k) (ex k) (em k) (fx k) (fm k)) ->
  forall n k s s' aq bq ae be af bf, lev <= k -> is_near u k (xDim ps) (fullUDim ps) s aq bq ae be af bf ->
  f_is_sum_costs F ps wk n l s = Some s' ->
  is_near u (k + 2 * length l) (xDim ps) (fullUDim ps) s'
    (fun a b => aq a b + fsum l (fun c => qx c a b))%Qc (fun a b => bq a b + fsum l (fun c => qm c a b))%Qc
    (fun a b => ae a b + fsum l (fun c => ex c a b))%Qc (fun a b => be a b + fsum l (fun c => em c a b))%Qc
    (fun a => af a + fsum l (fun c => fx c a))%Qc (fun a => bf a + fsum l (fun c => fm c a))%Qc.
Proof.
  intro Ac. pose proof (proj1 Ac) as Hu. set (xd := xDim ps). set (fu := fullUDim ps).
  induction l as [|c l IH]; intros H n k s s' aq bq ae be af bf Lk [I1 I2 I3 I4 I5 I6] E; cbn [f_is_sum_costs] in E.
  - injection E as <-. cbn [length]. replace (k + 2 * 0) with k by lia. unfold fsum. cbn [fold_right].
    split; try assumption; intros; (eapply near_eq; [eauto|ring|ring]).
  - destruct s as [Q v]. cbn [fst snd] in *. fold xd fu in E. rewrite I1, I2 in E.
    destruct ((fu <=? xd + fu) && (fu <=? xd + fu) && (xd <=? xd + fu)); [|discriminate E].
    destruct (f_addBlock F [n; 81; 4] Q _ _ fu fu _) as [Q1|] eqn:E1; [|discriminate E]. cbn [obind] in E.
    destruct (f_addBlock F [n; 82; 4] Q1 _ _ xd fu _) as [Q2|] eqn:E2; [|discriminate E]. cbn [obind] in E.
    destruct (tail v fu) as [t0|] eqn:Et; [|discriminate E]. cbn [obind] in E.
    destruct (Nat.eqb (vsize (kf (wk c))) fu); [|discriminate E].
    destruct (setSeg v _ fu _) as [v'|] eqn:Ev; [|discriminate E]. cbn [obind] in E.
    apply f_addBlock_inv in E1. destruct E1 as [R1 [C1 V1]]. rewrite C1, I2 in E2. apply f_addBlock_inv in E2. destruct E2 as [R2 [C2 V2]].
    apply tail_inv in Et. destruct Et as [_ ->]. apply setSeg_inv in Ev. destruct Ev as [_ [_ ->]]. cbn [vget vsize] in *. rewrite I3 in E.
    replace (xd + fu - fu) with xd in * by lia.
    destruct (H c (or_introl eq_refl)) as [K1 [K2 K3]].
    match type of E with f_is_sum_costs _ _ _ _ _ ?s1 = _ => assert (N1 : is_near u (k + 2) xd fu s1 (fun a b => aq a b + qx c a b)%Qc (fun a b => bq a b + qm c a b)%Qc
      (fun a b => ae a b + ex c a b)%Qc (fun a b => be a b + em c a b)%Qc (fun a => af a + fx c a)%Qc (fun a => bf a + fm c a)%Qc) end.
    {split; cbn [fst snd vget vsize]; try congruence; try lia.
    - intros i j Hi Hj. rewrite V2. rewrite (proj2 (Nat.ltb_ge (xd + i) (0 + xd))) by lia. rewrite andb_false_r. cbn [andb]. rewrite V1.
      rewrite !(proj2 (Nat.leb_le _ _)), !(proj2 (Nat.ltb_lt _ _)) by lia. cbn [andb].
      replace (xd + i - xd) with i by lia. replace (xd + j - xd) with j by lia.
      apply (two_near u F Ac); [exact (I4 i j Hi Hj)|]. eapply near_mono; [exact Hu|exact (K1 i j Hi Hj)|exact Lk].
    - intros i j Hi Hj. rewrite V2. rewrite !(proj2 (Nat.leb_le _ _)), !(proj2 (Nat.ltb_lt _ _)) by lia. cbn [andb].
      replace (xd + j - xd) with j by lia. replace (0 + (i - 0)) with i by lia. replace (i - 0) with i by lia. rewrite V1.
      rewrite (proj2 (Nat.leb_gt xd i)) by lia. cbn [andb].
      apply (two_near u F Ac); [exact (I5 i j Hi Hj)|]. eapply near_mono; [exact Hu|exact (K2 i j Hi Hj)|exact Lk].
    - intros j Hj. rewrite !(proj2 (Nat.leb_le _ _)), !(proj2 (Nat.ltb_lt _ _)) by lia. cbn [andb].
      replace (xd + j - xd) with j by lia.
      apply (two_near u F Ac); [exact (I6 j Hj)|]. eapply near_mono; [exact Hu|exact (K3 j Hj)|exact Lk]. }
    destruct (IH (fun i Hi => H i (or_intror Hi)) (S n) (k + 2) _ _ _ _ _ _ _ _ ltac:(lia) N1 E) as [T1 T2 T3 T4 T5 T6].
    replace (k + 2 * length (c :: l)) with (k + 2 + 2 * length l) by (cbn [length]; lia). unfold fsum in *. cbn [fold_right].
    split; try assumption; intros; (eapply near_eq; [eauto|cbn beta; ring|cbn beta; ring]).
Qed.

(** the value of one cost from the initial state [x] *)
Open Scope Qc_scope.
Definition xcf (ps : psys) (x : nat -> Qc) (c : cost) (j : nat) : Qc := sum (xDim ps) (fun i => kEf (pex ps) c i j * x i) + kff (pex ps) c j.
Definition mcf (ps : psys) (x : nat -> Qc) (c : cost) (j : nat) : Qc :=
  sum (xDim ps) (fun i => kEf (pab ps) (absC c) i j * vabs x i) + kff (pab ps) (absC c) j.
Lemma cost_values_x ps c x U : ps_wf ps -> vsize (x0 ps) = xDim ps -> k_dims ps c -> k_entry ps c ->
  objective (fullUDim ps) (kQf (pex ps) c) (xcf ps x c) U = doc_cost ps c x U - doc_cost ps c x (fun _ => 0) /\
  objective (fullUDim ps) (kQf (pab ps) (absC c)) (mcf ps x c) (vabs U) <= doc_size ps c x U.
Proof.
  intros W X0 D En.
  assert (Rx : ready (pex ps)) by (apply closed_ready; assumption).
  assert (Ra : ready (pab ps)) by (apply closed_ready; [exact W|exact X0]).
  assert (Da : k_dims (pab ps) (absC c)) by (unfold k_dims in *; cbn; destruct (kk c); exact D).
  assert (Ea : k_entry (pab ps) (absC c)) by (unfold k_entry in *; cbn; destruct (kk c); exact En).
  split.
  - rewrite <- !(doc_pex ps). exact (form_doc (pex ps) c x U Rx D En).
  - rewrite <- doc_pab.
    pose proof (form_doc (pab ps) (absC c) (vabs x) (vabs U) Ra Da Ea) as G0.
    change (objective (fullUDim ps) (kQf (pab ps) (absC c)) (mcf ps x c) (vabs U)
      = doc_cost (pab ps) (absC c) (vabs x) (vabs U) - doc_cost (pab ps) (absC c) (vabs x) (fun _ => 0)) in G0.
    rewrite G0.
    assert (G : 0 <= doc_cost (pab ps) (absC c) (vabs x) (fun _ => 0)).
    { apply doc_nonneg; try assumption. intros r _. apply Qcabs_nonneg. }
    revert G. generalize (doc_cost (pab ps) (absC c) (vabs x) (fun _ => 0))
      (doc_cost (pab ps) (absC c) (vabs x) (vabs U)). qc_lra.
Qed.
Lemma sum_fsum_scal {A} n (l : list A) (f : A -> nat -> Qc) (x : nat -> Qc) :
  sum n (fun i => fsum l (fun a => f a i) * x i) = fsum l (fun a => sum n (fun i => f a i * x i)).
Proof.
  induction l as [|a l IH]; unfold fsum in *; cbn [fold_right].
  - apply sum_zero. intros. ring.
  - rewrite <- IH, <- sum_add. apply sum_ext. intros. ring.
Qed.
Lemma fsum_add {A} (l : list A) (f g : A -> Qc) : fsum l (fun a => f a + g a) = fsum l f + fsum l g.
Proof. induction l as [|a l IH]; unfold fsum in *; cbn [fold_right]; [ring|]. rewrite IH. ring. Qed.
(** the part of the objective that depends on the controls, from the initial state [x] *)
Lemma f_is_value u F reg ps (wk : nat -> cost) lev (l : list nat) Q c x U : accurate u F -> within u q1em6 reg -> (1 <= lev)%nat ->
  (forall i, In i l -> k_near u lev (xDim ps) (fullUDim ps) (wk i) (kQf (pex ps) (wk i)) (kQf (pab ps) (absC (wk i)))
     (kEf (pex ps) (wk i)) (kEf (pab ps) (absC (wk i))) (kff (pex ps) (wk i)) (kff (pab ps) (absC (wk i)))) ->
  let k := (xDim ps + fullUDim ps)%nat in
  f_is_sum_costs F ps wk 0 l (mscal reg (mident k k), vconst k 0) = Some (Q, c) ->
  rows Q = k /\ cols Q = k /\ vsize c = k /\
  near u (lev + 2 * length l)
    (objective (fullUDim ps) (fun i j => at_ Q (xDim ps + i)%nat (xDim ps + j)%nat)
       (fun j => sum (xDim ps) (fun i => at_ Q i (xDim ps + j)%nat * x i) + vget c (xDim ps + j)%nat) U)
    (regularization (fullUDim ps) U + fsum l (fun i => objective (fullUDim ps) (kQf (pex ps) (wk i)) (xcf ps x (wk i)) U))
    (regularization (fullUDim ps) U + fsum l (fun i => objective (fullUDim ps) (kQf (pab ps) (absC (wk i))) (mcf ps x (wk i)) (vabs U))).
Proof.
  intros Ac Wr L N k E. pose proof (proj1 Ac) as Hu. set (FU := fullUDim ps) in *. set (xd := xDim ps) in *.
  assert (S0 : is_near u lev xd FU (mscal reg (mident k k), vconst k 0)
     (fun i j => q1em6 * (if Nat.eqb i j then 1 else 0)) (fun i j => q1em6 * (if Nat.eqb i j then 1 else 0))
     (fun _ _ => 0) (fun _ _ => 0) (fun _ => 0) (fun _ => 0)).
  { split; cbn [fst snd at_ vget mscal mident vconst rows cols vsize]; try reflexivity.
    - intros i j _ _. assert (EQ : Nat.eqb (xd + i) (xd + j) = Nat.eqb i j) by (clear; destruct (Nat.eqb_spec i j), (Nat.eqb_spec (xd + i) (xd + j)); lia).
      rewrite EQ. destruct (Nat.eqb i j).
      + rewrite !Qcmult_1_r. eapply near_mono; [exact Hu|apply (near_round u Hu 0 q1em6)|exact L].
        * apply near_refl; [exact Hu|]. rewrite Qcabs_pos by exact q1em6_nonneg. apply Qcle_refl.
        * exact Wr.
      + rewrite !Qcmult_0_r. apply near_0. exact Hu.
    - intros i j Hi _. rewrite (proj2 (Nat.eqb_neq i (xd + j)%nat)) by lia. rewrite Qcmult_0_r. apply near_0. exact Hu.
    - intros j _. apply near_0. exact Hu. }
  destruct (f_is_sum_near u F ps wk lev _ _ _ _ _ _ Ac l N 0 lev _ _ _ _ _ _ _ _ (Nat.le_refl _) S0 E) as [T1 T2 T3 T4 T5 T6].
  cbn [fst snd] in *. fold xd FU in T1, T2, T3, T4, T5, T6. split; [exact T1|]. split; [exact T2|]. split; [exact T3|].
  eapply near_up; [exact Hu|eapply near_eq|].
  - apply (objective_near u (lev + 2 * length l) FU (fun i j => at_ Q (xd + i)%nat (xd + j)%nat) _ _
      (fun j => sum xd (fun i => at_ Q i (xd + j)%nat * x i) + vget c (xd + j)%nat)
      (fun j => 0 + fsum l (fun a => xcf ps x (wk a) j)) (fun j => 0 + fsum l (fun a => mcf ps x (wk a) j)) U Hu T4).
    intros j Hj. eapply near_eq; [apply near_add; [|exact (T6 j Hj)]|..].
    + apply near_sum; [exact Hu|]. intros i Hi.
      eapply near_mono; [exact Hu|eapply (near_mul u Hu (lev + 2 * length l) 0); [exact (T5 i j Hi Hj)|apply (near_abs u Hu 0 (x i))]|lia].
    + unfold xcf. rewrite fsum_add, <- sum_fsum_scal. fold xd. rewrite !Qcplus_0_l. f_equal. apply sum_ext. intros. rewrite Qcplus_0_l. reflexivity.
    + unfold mcf. rewrite fsum_add, <- sum_fsum_scal. fold xd. rewrite !Qcplus_0_l. f_equal. apply sum_ext. intros. rewrite Qcplus_0_l. reflexivity.
  - rewrite objective_add, objective_ident, objective_fsum. reflexivity.
  - rewrite objective_add, objective_ident, objective_fsum. reflexivity.
  - unfold regularization. apply Qcplus_le_compat; [|apply Qcle_refl].
    assert (Es : sum FU (fun i => vabs U i * vabs U i) = sum FU (fun i => U i * U i)).
    { apply sum_ext. intros i _. unfold vabs. rewrite <- Qcabs_Qcmult. apply Qcabs_pos. apply qc_sq_nonneg. }
    rewrite Es. apply Qcle_refl.
Qed.
Close Scope Qc_scope.

(** ** One solve *)
Lemma f_is_form_inv F inv is ps w q' : f_is_makeQPForm F inv is ps w = Some q' ->
  let m := ctl w in let q := m_qp m in let xd := xDim ps in let fu := fullUDim ps in
  exists Q c lb ub,
  f_is_sum_costs F ps (wcost w) 0 (spCost m) (qQ q, qc q) = Some (Q, c) /\
  (exists s, is_stack_rows xd fu (wcon w) (spEq m) (qAeq q, qbeq q, 0) = Some (qAeq q', qbeq q', s)) /\
  (exists s, is_stack_rows xd fu (wcon w) (spIneq m) (qAineq q, qbineq q, 0) = Some (qAineq q', qbineq q', s)) /\
  (exists s, stack_bounds (wcon w) (spB m) (qlb q, qub q, xd) = Some (lb, ub, s)) /\
  f_is_corner F inv xd fu (isR is) Q = Some (qQ q') /\ setSeg c 0 xd (isr is) = Some (qc q') /\
  setSeg lb 0 xd (isx0lb is) = Some (qlb q') /\ setSeg ub 0 xd (isx0ub is) = Some (qub q').
Proof.
  unfold f_is_makeQPForm. cbv zeta. intro H.
  destruct (f_is_sum_costs _ _ _ _ _ _) as [[Q c]|] eqn:E1; [|discriminate]. cbn [obind] in H.
  destruct (is_stack_rows _ _ _ (spEq _) _) as [[[A b] s]|] eqn:E2; [|discriminate]. cbn [obind] in H.
  destruct (is_stack_rows _ _ _ (spIneq _) _) as [[[A' b'] s']|] eqn:E3; [|discriminate]. cbn [obind] in H.
  destruct (stack_bounds _ _ _) as [[[lb ub] s'']|] eqn:E4; [|discriminate]. cbn [obind] in H.
  destruct (f_is_corner _ _ _ _ _ _) as [Q'|] eqn:E5; [|discriminate]. cbn [obind] in H.
  unfold setHead in H.
  destruct (setSeg c 0 _ _) as [c'|] eqn:E6; [|discriminate]. cbn [obind] in H.
  destruct (setSeg lb 0 _ _) as [lb'|] eqn:E7; [|discriminate]. cbn [obind] in H.
  destruct (setSeg ub 0 _ _) as [ub'|] eqn:E8; [|discriminate]. cbn [obind] in H.
  injection H as <-. exists Q, c, lb, ub. cbn [qQ qc qAineq qbineq qAeq qbeq qlb qub].
  split; [reflexivity|]. split; [eauto|]. split; [eauto|]. split; [eauto|]. auto.
Qed.
Definition f_rows_from (u : Qc) (ps : psys) (c c' : constr) : Prop :=
  (ck c <> KCtrlB -> forall r, r < nrConstr c -> forall x U,
     row_error u (crnd ps c) (apply (xDim ps) (at_ (cY c')) x r + apply (fullUDim ps) (at_ (cA c')) U r)%Qc (vget (cz c') r)
       (c_lin ps c r x U) (c_rhs ps c r) (c_size ps c r x U)) /\
  (ck c = KCtrlB -> forall i, i < fullUDim ps -> vget (clb c') i = cb_lo ps c i /\ vget (cub c') i = cb_up ps c i).
Lemma crow_error_from u ps c' r lin rhs x U size : crow_ok ps c' r lin rhs ->
  row_error u 0 (apply (xDim ps) (at_ (cY c')) x r + apply (fullUDim ps) (at_ (cA c')) U r)%Qc (vget (cz c') r) (lin x U) rhs size.
Proof.
  intros [k [Ez [Eb El]]]. unfold row_error. rewrite Ez, <- El. clear Eb Ez El.
  assert (G : growth u 0 = 0%Qc) by (unfold growth; cbn; ring).
  destruct rhs as [|f|]; cbn [ext_sub]; [reflexivity| |reflexivity].
  eexists. split; [reflexivity|]. rewrite G. unfold apply.
  match goal with |- (Qcabs ?x <= _)%Qc => replace x with 0%Qc by ring end. rewrite Qcabs_pos by apply Qcle_refl.
  rewrite Qcmult_0_l. apply Qcle_refl.
Qed.
Lemma f_con_from u F (Ac : accurate u F) D ps c c' : computed F ps -> same_dims ps D -> c_inited D c -> f_c_update F ps c = Some c' -> f_rows_from u ps c c'.
Proof.
  intros C SD [Sh _] E. apply same_dims_sym in SD.
  assert (Sh' : c_shape ps c) by (eapply c_shape_dims; eassumption).
  assert (KC : (ck c <> KCtrl /\ ck c <> KCtrlB) \/ ck c = KCtrl \/ ck c = KCtrlB).
  { clear. destruct (ck c); try (right; auto; fail); left; split; discriminate. }
  destruct KC as [[K1 K2]|[K|K]].
  - destruct (f_updates_ok u F ps [] ps c Ac K1 K2 Sh') as [c2 [E2 [_ [_ R]]]].
    { constructor; [split; [exact C|repeat split]|constructor]. }
    cbn [app f_c_updates] in E2. rewrite E in E2. cbn [obind] in E2. injection E2 as <-.
    split; [|congruence]. intros _ r Hr x U. destruct (R r Hr) as [_ R1]. unfold crnd. destruct (ck c); try congruence; exact (R1 x U).
  - destruct (computed_twin F ps C) as [q [R Dq]]. destruct (ctrl_update_ok q R c K) as [c2 [E2 [_ [_ M]]]]; [eapply c_shape_dims; [apply same_dims_sym; exact Dq|exact Sh']|].
    unfold f_c_update in E. rewrite K in E. rewrite (ctrl_update_dims ps q) in E by (apply same_dims_sym; exact Dq). rewrite E in E2. injection E2 as <-.
    split; [|congruence]. intros _ r Hr x U. pose proof (crow_error_from u q c' r _ _ x U (c_size ps c r x U) (M r Hr)) as G.
    assert (FU : fullUDim q = fullUDim ps) by apply Dq. assert (XD : xDim q = xDim ps) by apply Dq. rewrite FU, XD, (c_lin_dims q ps) in G by assumption.
    unfold crnd. rewrite K. assert (RU : c_rhs q c r = c_rhs ps c r) by (unfold c_rhs; rewrite K; reflexivity). rewrite RU in G. exact G.
  - destruct (computed_twin F ps C) as [q [R Dq]]. destruct (ctrlB_update_ok q R c K) as [c2 [E2 [_ [_ M]]]]; [eapply c_shape_dims; [apply same_dims_sym; exact Dq|exact Sh']|].
    unfold f_c_update in E. rewrite K in E. rewrite (ctrlB_update_dims ps q) in E by (apply same_dims_sym; exact Dq). rewrite E in E2. injection E2 as <-.
    split; [congruence|]. intros _ i Hi. assert (FU : fullUDim q = fullUDim ps) by apply Dq. rewrite <- FU in Hi.
    assert (EU : uDim q = uDim ps) by apply Dq. specialize (M i Hi). unfold cb_lo, cb_up in *. rewrite EU in M. exact M.
Qed.
Lemma f_rows_from_obj u ps c c1 c' : same_obj c c1 -> f_rows_from u ps c1 c' -> f_rows_from u ps c c'.
Proof.
  intros SO [M1 M2]. pose proof SO as [SDt Q]. pose proof SDt as [D1 [D2 [D3 [D4 _]]]]. split.
  - intros K r Hr x U. rewrite <- D1 in K. rewrite <- D3 in Hr. specialize (M1 K r Hr x U).
    rewrite (same_obj_lin ps c c1 r _ U SO), (same_obj_rhs ps c c1 r SO), (same_data_size ps c c1 r _ U SDt) in M1.
    unfold crnd in *. rewrite (same_data_p ps c c1 SDt), D1 in M1. exact M1.
  - intros K i Hi. rewrite <- D1 in K. destruct (M2 K i Hi) as [-> ->].
    unfold cb_lo, cb_up. rewrite D4. destruct SDt as [_ [_ [_ [_ [_ [_ [_ [_ [D9 [D10 _]]]]]]]]]]. rewrite D9, D10.
    destruct (fullSizeEntry c) eqn:Fu; [|auto]. rewrite D1 in K. rewrite (Q eq_refl (or_intror K)). auto.
Qed.
Lemma f_update_cons_from u F (Ac : accurate u F) n m N ps : computed F ps -> same_dims ps (dps n m N) -> forall l wc wc', f_update_cons F ps l wc = Some wc' ->
  (forall i, In i l -> c_inited (dps n m N) (wc i)) -> forall i, In i l -> f_rows_from u ps (wc i) (wc' i).
Proof.
  intros C SD. unfold f_update_cons.
  assert (G : forall l wc wc', for_list l (fun i wc => c <- f_c_update F ps (wc i) ;; Some (upd wc i c)) wc = Some wc' ->
    (forall i, In i l -> c_inited (dps n m N) (wc i)) -> forall i c0, same_obj c0 (wc i) -> (f_rows_from u ps c0 (wc i) \/ In i l) -> f_rows_from u ps c0 (wc' i)).
  { induction l as [|x t IH]; intros wc wc' E H i c0 S Hi; cbn [for_list] in E.
    - injection E as <-. destruct Hi as [Hi|[]]. exact Hi.
    - destruct (f_con_ok u F Ac n m N ps (wc x) C SD (H x (or_introl eq_refl))) as [c [Ec [Hc So]]].
      pose proof (f_con_from u F Ac (dps n m N) ps (wc x) c C SD (H x (or_introl eq_refl)) Ec) as M.
      rewrite Ec in E. cbn [obind] in E. apply (IH _ _ E).
      + intros k Hk. unfold upd. destruct (Nat.eqb_spec k x) as [->|]; [exact Hc|apply H; right; exact Hk].
      + unfold upd. destruct (Nat.eqb_spec i x) as [->|]; [|exact S]. eapply same_obj_trans; [exact S|exact So].
      + unfold upd. destruct (Nat.eqb_spec i x) as [->|Nx].
        * left. eapply (f_rows_from_obj u); [exact S|exact M].
        * destruct Hi as [Hi|[Hi|Hi]]; [auto|congruence|auto]. }
  intros l wc wc' E H i Hi. eapply G; [exact E|exact H|apply same_obj_refl|right; exact Hi].
Qed.

Section Solve.
Variables (u : Qc) (F : arith) (Ac : accurate u F) (reg : Qc).
Variables n m N : nat.
Hypothesis SF : sizes_fit n m N.
Notation D := (dps n m N).

Record g_assembled (w : world) (p : nat) (s : ist) (e : senv) (b : bool) (w' : world) : Prop := {
  ga_comp : computed F (wps w' p);
  ga_dims : same_dims (wps w' p) D;
  ga_same : same_dims (wps w' p) (wps w p);
  ga_A : psA (wps w' p) = psA (wps w p);
  ga_B : psB (wps w' p) = psB (wps w p);
  ga_d : psd (wps w' p) = psd (wps w p);
  ga_con : f_update_cons F (wps w' p) (spC (ctl w)) (wcon w) = Some (wcon w');
  ga_cost : f_update_costs F (wps w' p) (spCost (ctl w)) (wcost w) = Some (wcost w');
  ga_sized : qp_sized (xDim (wps w' p) + fullUDim (wps w' p)) (m_qp (ctl w));
  ga_sum : let k := xDim (wps w' p) + fullUDim (wps w' p) in exists Q c,
     f_is_sum_costs F (wps w' p) (wcost w') 0 (spCost (ctl w)) (mscal reg (mident k k), vconst k 0%Qc) = Some (Q, c) /\
     rows Q = k /\ cols Q = k /\ vsize c = k /\ rows (qQ (m_qp (ctl w'))) = k /\ cols (qQ (m_qp (ctl w'))) = k /\ vsize (qc (m_qp (ctl w'))) = k /\
     (forall i j, xDim (wps w' p) <= j -> j < k -> i < k -> at_ (qQ (m_qp (ctl w'))) i j = at_ Q i j) /\
     (forall i j, xDim (wps w' p) <= i -> i < k -> j < xDim (wps w' p) -> at_ (qQ (m_qp (ctl w'))) i j = at_ Q j i) /\
     (forall j, xDim (wps w' p) <= j -> vget (qc (m_qp (ctl w'))) j = vget c j);
  ga_eq : stacked (fun i => nrConstr (wcon w' i)) (fun i => ext_row (wcon w' i) (xDim (wps w' p))) (fun i => vget (cz (wcon w' i)))
            (xDim (wps w' p) + fullUDim (wps w' p)) (spEq (ctl w)) (qAeq (m_qp (ctl w'))) (qbeq (m_qp (ctl w')));
  ga_ineq : stacked (fun i => nrConstr (wcon w' i)) (fun i => ext_row (wcon w' i) (xDim (wps w' p))) (fun i => vget (cz (wcon w' i)))
            (xDim (wps w' p) + fullUDim (wps w' p)) (spIneq (ctl w)) (qAineq (m_qp (ctl w'))) (qbineq (m_qp (ctl w')));
  ga_bx : forall i, i < xDim (wps w' p) -> vget (qlb (m_qp (ctl w'))) i = vget (isx0lb s) i /\ vget (qub (m_qp (ctl w'))) i = vget (isx0ub s) i;
  ga_b0 : spB (ctl w) = [] -> forall i, xDim (wps w' p) <= i ->
     vget (qlb (m_qp (ctl w'))) i = vget (qlb (m_qp (ctl w))) i /\ vget (qub (m_qp (ctl w'))) i = vget (qub (m_qp (ctl w))) i;
  ga_b1 : forall k, spB (ctl w) = [k] -> forall i, i < nrConstr (wcon w' k) ->
     vget (qlb (m_qp (ctl w'))) (xDim (wps w' p) + i) = vget (clb (wcon w' k)) i /\ vget (qub (m_qp (ctl w'))) (xDim (wps w' p) + i) = vget (cub (wcon w' k)) i;
  ga_lbs : vsize (qlb (m_qp (ctl w'))) = xDim (wps w' p) + fullUDim (wps w' p) /\ vsize (qub (m_qp (ctl w'))) = xDim (wps w' p) + fullUDim (wps w' p);
  ga_call : m_ps (ctl w') = Some p /\
     s_qp e (vsize (qc (m_qp (ctl w')))) (rows (qAeq (m_qp (ctl w')))) (rows (qAineq (m_qp (ctl w')))) (m_qp (ctl w')) = (b, m_sol (ctl w')) /\
     (b = true -> exists xi, seg (m_sol (ctl w')) 0 (xDim (wps w' p)) = Some xi /\ tail (m_sol (ctl w')) (fullUDim (wps w' p)) = Some (m_ctrl (ctl w')) /\
        f_preview F (wps w' p) xi (m_ctrl (ctl w')) = Some (m_traj (ctl w')))
}.
Lemma g_assembly w p s e b w' : f_pinv F n m N w -> m_ps (ctl w) = Some p -> m_is (ctl w) = Some s ->
  f_solve F reg e w = Some (b, w') -> g_assembled w p s e b w'.
Proof using Ac.
  intros P Ep Ei So. pose proof P as [PI L].
  destruct (f_solve_parts u F Ac reg n m N e w b w' P So) as [p' [ps [w1 [r [Ep' [Er [Eu [Eb [Es [W1 [W2 [W3 [W4 [W5 [W6 [W7 [W8 [W9 [W10 [Ec [Ek [SC TR]]]]]]]]]]]]]]]]]]]]]].
  rewrite Ep in Ep'. injection Ep' as <-.
  destruct (pi_m _ _ PI p Ep) as [Np Qs]. cbn [dressw reps wps] in Np. rewrite dress_nu in Np.
  cbn [dressw reps ctl] in Qs. unfold opt in Qs. rewrite Ei in Qs.
  destruct (f_ensure_live F D _ (L p Np)) as [ps' [Eu' [Lp [Up [X0 [EA [EB [Ed Sd]]]]]]]]. rewrite Eu in Eu'. injection Eu' as <-.
  destruct Lp as [SD [FR CC]]. specialize (CC Up).
  assert (PS : wps w' p = ps) by (rewrite W1; unfold upd; rewrite Nat.eqb_refl; reflexivity).
  assert (FU : fullUDim ps = fullUDim D) by apply SD. assert (XD : xDim ps = xDim D) by apply SD.
  destruct (f_build_parts F reg e w w1 Eb) as [p' [ps' [wc [wk [q [Ep' [Eu' [Ec' [Ek' [Eq E1]]]]]]]]]]. cbv zeta in Eq, E1. rewrite Ei in Eq, TR.
  rewrite Ep in Ep'. injection Ep' as <-. rewrite Eu in Eu'. injection Eu' as <-.
  assert (C1 : wcon w1 = wc) by (rewrite E1; reflexivity). assert (C2 : wcost w1 = wk) by (rewrite E1; reflexivity).
  assert (Q1 : m_qp (ctl w1) = q) by (rewrite E1; reflexivity).
  destruct (f_cons_ok u F Ac n m N ps CC SD _ _ (pi_rcon _ _ PI)) as [wc' [Ec'' [_ [_ C3]]]]. cbn [dressw reps ctl wcon] in Ec''. rewrite Ec' in Ec''. injection Ec'' as <-.
  assert (NR : forall i, nrConstr (wc i) = nrConstr (wcon w i)) by (intro i; destruct (C3 i) as [[_ [_ [H3 _]]] _]; exact H3).
  assert (TT : forall l, total_rows (wcon w) l = rows_of (fun i => nrConstr (wc i)) l).
  { intro l. rewrite total_rows_of. apply rows_of_ext. intros i _. symmetry. apply NR. }
  assert (NE1 : nrEq (ctl w1) = total_rows (wcon w) (spEq (ctl w))) by (rewrite E1; reflexivity).
  assert (NI1 : nrIneq (ctl w1) = total_rows (wcon w) (spIneq (ctl w))) by (rewrite E1; reflexivity).
  apply f_is_form_inv in Eq. destruct Eq as [Q [c [lb [ub [S1 [[s2 S2] [[s3 S3] [[s4 S4] [S5 [S6 [S7 S8]]]]]]]]]]].
  cbn [ctl wcost wcon updateConstraintMatrixSize m_qp set_qpm set_lists spCost spEq spIneq spB qQ qc qAeq qbeq qAineq qbineq qlb qub f_resetQP nrEq nrIneq] in *.
  destruct Qs as [Z1 [Z2 [Z3 [Z4 Z5]]]]. rewrite Z1, Z2, Z3 in S1. rewrite <- FU, <- XD in *.
  assert (OS : optSize (set_lists (set_qpm (ctl w) (f_resetQP reg (m_qp (ctl w)))) (total_rows (wcon w) (spEq (ctl w)))
           (total_rows (wcon w) (spIneq (ctl w))) (spC (ctl w)) (spEq (ctl w)) (spIneq (ctl w)) (spB (ctl w))) ps = xDim ps + fullUDim ps).
  { unfold optSize. cbn. rewrite Ei. reflexivity. }
  rewrite OS in S2, S3.
  apply (stack_stacked _ _ _ _ _ (is_stack_rows_writes wc (xDim ps) (fullUDim ps))) in S2;
    [|rewrite mresize_rows; apply TT|apply mresize_cols|rewrite vresize_size; apply TT].
  apply (stack_stacked _ _ _ _ _ (is_stack_rows_writes wc (xDim ps) (fullUDim ps))) in S3;
    [|rewrite mresize_rows; apply TT|apply mresize_cols|rewrite vresize_size; apply TT].
  apply setSeg_inv in S6 as [U1 [U2 U3]]. apply setSeg_inv in S7 as [V1 [V2 V3]]. apply setSeg_inv in S8 as [Y1 [Y2 Y3]].
  apply stack_bounds_spec in S4. destruct S4 as [D1 [D2 [D3 [D4 [D5 [D6 D7]]]]]].
  assert (T : forall i, xDim ps <= i -> vget (qlb q) i = vget lb i /\ vget (qub q) i = vget ub i).
  { intros i Hi. rewrite V3, Y3. cbn [vget]. rewrite (proj2 (Nat.ltb_ge i (0 + xDim ps))) by lia. rewrite andb_false_r. auto. }
  split; rewrite ?PS, ?W6, ?Q1, ?W2, ?W3, ?C1, ?C2; try assumption.
  - repeat split; assumption.
  - cbv zeta. exists Q, c. split; [exact S1|].
    assert (SS := f_is_sum_ok F ps wk (spCost (ctl w)) 0 (mscal reg (mident (xDim ps + fullUDim ps) (xDim ps + fullUDim ps))) (vconst (xDim ps + fullUDim ps) 0%Qc)
      eq_refl eq_refl eq_refl).
    destruct SS as [Q0 [c0 [E0 [RQ [CQ VC]]]]].
    { intros i Hi. destruct (f_costs_ok u F Ac n m N ps CC SD _ _ (fun i Hi => pi_rcost _ _ PI i Hi)) as [wk' [Ek'' [K1 _]]]. cbn [dressw reps ctl wcost] in Ek''. rewrite Ek' in Ek''. injection Ek'' as <-.
      destruct (K1 i (pi_rcost _ _ PI i Hi)) as [[Z _] _]. unfold k_sized in Z. rewrite FU, XD. tauto. }
    rewrite S1 in E0. injection E0 as <- <-.
    destruct (f_is_corner_inv F _ _ _ _ _ _ S5 RQ CQ) as [B1 [B2 [B3 B4]]].
    do 3 (split; [assumption|]). split; [congruence|]. split; [congruence|]. split; [rewrite U3; exact VC|]. split; [intros; apply B3; assumption|].
    split; [intros; apply B4; assumption|]. intros j Hj. rewrite U3. cbn [vget]. rewrite (proj2 (Nat.ltb_ge j (0 + xDim ps))) by lia. rewrite andb_false_r. reflexivity.
  - intros i Hi. rewrite V3, Y3. cbn [vget]. change (0 <=? i) with true.
    rewrite (proj2 (Nat.ltb_lt i (0 + xDim ps))) by lia. cbn [andb]. rewrite Nat.sub_0_r. auto.
  - intros E i Hi. destruct (T i Hi) as [-> ->]. apply D7. right. rewrite E in D1. unfold rows_of in D1. cbn in D1. lia.
  - intros k E i Hi. destruct (T (xDim ps + i) ltac:(lia)) as [-> ->]. rewrite E in *.
    destruct (D6 [] k [] eq_refl i Hi) as [L3 L4]. unfold rows_of in L3, L4. cbn in L3, L4. rewrite Nat.add_0_r in L3, L4. auto.
  - rewrite V3, Y3. cbn [vsize]. split; congruence.
  - split; [congruence|]. split.
    + rewrite Q1, NE1, NI1 in Es. destruct S2 as [R2 _]. destruct S3 as [R3 _]. rewrite R2, R3, <- !TT, Er. exact Es.
    + intro Eb'. destruct (TR Eb') as [xi [v [x [T1 [T2 [T3 [T4 T5]]]]]]]. exists xi. rewrite Er, T4, T5. auto.
Qed.

(** ** The bounds of the controls stay free until a control bound has been solved with *)
Lemma g_free_tail h w : f_follows_protocol F reg n m N world0 h -> f_callable F reg world0 h -> f_honest F reg world0 h ->
  f_run F reg world0 h = Some w -> f_stale F reg world0 false h = false -> free_tail n w.
Proof using Ac SF.
  revert w. induction h as [|o h IH] using rev_ind; intros w FP CA HO R St.
  - cbn [f_run] in R. injection R as <-. intros i _. split; cbn; lia.
  - destruct (f_run_snoc F reg o h _ _ R) as [v [Rv S]]. rewrite (f_stale_snoc F reg o h world0 false v Rv) in St.
    destruct (each_call_snoc F reg _ o h _ v FP Rv) as [FPh Lg].
    destruct (each_call_snoc F reg _ o h _ v CA Rv) as [CAh Co].
    destruct (each_call_snoc F reg _ o h _ v HO Rv) as [HOh Ho].
    specialize (IH v FPh CAh HOh Rv).
    destruct (op_cases o) as [PO|[[p [po ->]]|[e ->]]].
    + assert (S' : stepped v o w) by (unfold f_stepped in S; rewrite (plain_f_step F reg v o PO) in S; exact S).
      pose proof (step_bounds _ _ _ S') as B.
      assert (Fr : free_bounds (ctl w) -> free_tail n w) by (intros [B1 B2] i _; auto).
      destruct o; cbn [stale_op plain_op] in St, PO; try contradiction PO; try (apply Fr; exact B);
        (destruct B as [B1 B2]; intros k0 Hk0; rewrite B1; apply (IH St k0); destruct Hk0 as [Hk0|Hk0]; auto).
    + unfold f_stepped in S. cbn [f_step] in S. cbn [stale_op] in St.
      destruct (f_ps_step F (wps v p) po); cbn [out_map] in S; destruct S as [S|[x S]]; try discriminate S; injection S; intros; subst; exact (IH St).
    + cbn [stale_op] in St. destruct (spB (ctl v)) as [|i0 t] eqn:Es; [|discriminate St]. specialize (IH St).
      unfold f_stepped in S. cbn [f_step] in S. destruct (f_solve F reg e v) as [[b v']|] eqn:So; [|destruct S as [S|[x S]]; discriminate S].
      assert (E : v' = w) by (destruct S as [S|[x S]]; [injection S; auto|discriminate S]). subst v'.
      pose proof (fi_p _ _ _ _ _ _ (finv_holds u F Ac reg n m N SF h v FPh CAh HOh Rv)) as P.
      destruct (f_solve_parts u F Ac reg n m N e v b w P So) as [p [ps [w1 [r [Ep [_ [_ [_ [_ [_ [_ [_ [_ [_ [_ [_ [W8 _]]]]]]]]]]]]]]]]].
      destruct (m_is (ctl v)) as [s|] eqn:Ei.
      * pose proof (g_assembly v p s e b w P Ep Ei So) as A. pose proof (ga_b0 _ _ _ _ _ _ A Es) as B0.
        destruct (ga_lbs _ _ _ _ _ _ A) as [V1 V2]. destruct (ga_sized _ _ _ _ _ _ A) as [_ [_ [_ [Z1 Z2]]]].
        assert (DM : xDim (wps w p) = n) by apply (ga_dims _ _ _ _ _ _ A). rewrite DM in *.
        intros i [Hi|Hi]; [congruence|]. destruct (B0 i Hi) as [-> ->]. destruct (IH i (or_intror Hi)) as [F1 F2]. split; intro Hl; [apply F1|apply F2]; lia.
      * pose proof (f_assembly u F Ac reg n m N v p e b w P Ep Ei So) as A. destruct (fa_b0 _ _ _ _ _ _ _ _ _ _ A Es) as [Q1 Q2].
        intros i _. rewrite Q1, Q2. apply (IH i). auto.
Qed.

Variables (h : list op) (w : world) (p : nat) (s : ist) (e : senv) (b : bool) (w' : world).
Hypotheses (FP : f_follows_protocol F reg n m N world0 h) (CA : f_callable F reg world0 h) (HO : f_honest F reg world0 h)
  (RE : f_run F reg world0 h = Some w) (Ep : m_ps (ctl w) = Some p) (Is : m_is (ctl w) = Some s) (So : f_solve F reg e w = Some (b, w')).
Notation ps := (wps w' p).
Notation XD := (xDim (wps w' p)).
Notation FU := (fullUDim (wps w' p)).

Lemma gs_inv : finv F n m N h w.
Proof using Ac SF FP CA HO RE. exact (finv_holds u F Ac reg n m N SF h w FP CA HO RE). Qed.
Lemma gs_asm : g_assembled w p s e b w'.
Proof using Ac SF FP CA HO RE Ep Is So. apply g_assembly; [apply (fi_p _ _ _ _ _ _ gs_inv)|assumption|assumption|assumption]. Qed.
Lemma gs_rcon i : In i (spC (ctl w)) -> c_inited D (wcon w i).
Proof using Ac SF FP CA HO RE. intro Hi. exact (pi_rcon _ _ (proj1 (fi_p _ _ _ _ _ _ gs_inv)) i Hi). Qed.
Lemma gs_rcost i : In i (spCost (ctl w)) -> k_inited D (wcost w i).
Proof using Ac SF FP CA HO RE. intro Hi. exact (pi_rcost _ _ (proj1 (fi_p _ _ _ _ _ _ gs_inv)) i Hi). Qed.
Lemma gs_reg : reg_inv (dressw w).
Proof using Ac SF FP CA HO RE. exact (pi_reg _ _ (proj1 (fi_p _ _ _ _ _ _ gs_inv))). Qed.
Lemma gs_well_sized : well_sized (vsize (qc (m_qp (ctl w')))) (rows (qAeq (m_qp (ctl w')))) (rows (qAineq (m_qp (ctl w')))) (m_qp (ctl w')).
Proof using Ac SF FP CA HO RE Ep Is So.
  pose proof gs_asm as A. destruct (ga_sum _ _ _ _ _ _ A) as [Q [c [_ [_ [_ [_ [Q1 [Q2 [Q3 _]]]]]]]]].
  destruct (ga_lbs _ _ _ _ _ _ A) as [L1 L2]. destruct (ga_eq _ _ _ _ _ _ A) as [SE1 [SE2 [SE3 _]]]. destruct (ga_ineq _ _ _ _ _ _ A) as [SI1 [SI2 [SI3 _]]].
  unfold well_sized. repeat split; try reflexivity; congruence.
Qed.
Lemma gs_con i : In i (spC (ctl w)) -> even_bounds h i ->
  exists d, con_data_of h i = Some d /\ con_alike (c_given (wcon w i)) d /\ lines_fresh (wcon w i) /\
    f_rows_from u ps (wcon w i) (wcon w' i) /\ nrConstr (wcon w' i) = nrConstr (wcon w i) /\ valid_shape ps (new_con (c_given (wcon w i))).
Proof using Ac SF FP CA HO RE Ep Is So.
  intros Hi NS. pose proof gs_asm as A. pose proof (ga_comp _ _ _ _ _ _ A) as CC. pose proof (ga_dims _ _ _ _ _ _ A) as SD. pose proof (ga_con _ _ _ _ _ _ A) as Ec.
  pose proof gs_inv as I.
  pose proof (fi_p _ _ _ _ _ _ I) as [PI _]. pose proof (fi_nc _ _ _ _ _ _ I) as CL.
  pose proof (ri_con _ (pi_reg _ _ PI) i Hi) as Lt. cbn [dressw reps ncon] in Lt. rewrite <- CL in Lt. apply nth_error_Some in Lt.
  assert (exists d, con_data_of h i = Some d) as [d Ed] by (unfold con_data_of; destruct (nth_error (new_cons h) i); [eauto|congruence]).
  exists d. destruct (fi_con _ _ _ _ _ _ I i d Ed) as [G1 G2]. split; [exact Ed|]. split; [exact G1|]. split; [exact (G2 NS)|].
  split; [exact (f_update_cons_from u F Ac n m N ps CC SD _ _ _ Ec (fun i Hi => gs_rcon i Hi) i Hi)|].
  destruct (f_cons_ok u F Ac n m N ps CC SD _ _ (fun i Hi => gs_rcon i Hi)) as [wc' [Ec'' [_ [_ C3]]]]. rewrite Ec in Ec''. injection Ec'' as <-.
  split; [destruct (C3 i) as [[_ [_ [H3 _]]] _]; exact H3|].
  destruct (inited_valid D _ (gs_rcon i Hi) (G2 NS)) as [V _]. apply (valid_shape_dims D ps) in V; [exact V|apply same_dims_sym; exact SD].
Qed.
Lemma gs_wf : ps_wf ps /\ vsize (x0 ps) = XD.
Proof using Ac SF FP CA HO RE Ep Is So. exact (computed_inv F _ (ga_comp _ _ _ _ _ _ gs_asm)). Qed.
Lemma gs_each i d x U (P : row_pred) : In i (spC (ctl w)) -> even_bounds h i -> con_data_of h i = Some d ->
  (ck (wcon w i) <> KCtrlB ->
     ((forall r, r < nrConstr (wcon w i) -> P (crnd ps (wcon w i)) (isIneq (wcon w i)) (c_lin ps (wcon w i) r x U) (c_rhs ps (wcon w i) r) (c_size ps (wcon w i) r x U)) <->
      each_row ps d x U P)) /\
  (ck (wcon w i) = KCtrlB ->
     ((forall k, k < FU -> P 0 true (- U k)%Qc (ext_opp (cb_lo ps (wcon w i) k)) 0%Qc /\ P 0 true (U k) (cb_up ps (wcon w i) k) 0%Qc) <->
      each_row ps d x U P)).
Proof using Ac SF FP CA HO RE Ep Is So.
  intros Hi NS Ed. destruct (gs_con i Hi NS) as [d' [Ed' [G1 [G2 [_ [_ V]]]]]]. rewrite Ed in Ed'. injection Ed' as <-.
  pose proof gs_wf as [W _]. pose proof (ga_dims _ _ _ _ _ _ gs_asm) as SD. pose proof (gs_rcon i Hi) as I.
  pose proof (each_row_alike ps _ d x U P W G1 V) as EA. split; intro K.
  - rewrite <- EA. apply (inited_each_row ps D W SD); assumption.
  - rewrite <- EA. apply (inited_each_bound ps D W SD); assumption.
Qed.
(** ** Feasibility, row by row of the objects *)
Definition grow_close (t : Qc) (x U : nat -> Qc) (i : nat) : Prop :=
  (ck (wcon w i) <> KCtrlB -> forall r, r < nrConstr (wcon w i) ->
     meets t (isIneq (wcon w i)) (apply XD (at_ (cY (wcon w' i))) x r + apply FU (at_ (cA (wcon w' i))) U r)%Qc (vget (cz (wcon w' i)) r)) /\
  (ck (wcon w i) = KCtrlB -> forall k, k < FU ->
     meets t true (- U k)%Qc (ext_opp (vget (clb (wcon w' i)) k)) /\ meets t true (U k) (vget (cub (wcon w' i)) k)).
Lemma ext_row_apply a k c X r : apply (a + k) (ext_row c a) X r = (apply a (at_ (cY c)) X r + apply k (at_ (cA c)) (ctrl_part a X) r)%Qc.
Proof using.
  rewrite apply_blocks. unfold apply, ext_row. f_equal; apply sum_ext; intros j Hj.
  - rewrite (proj2 (Nat.ltb_lt _ _)) by exact Hj. reflexivity.
  - rewrite (proj2 (Nat.ltb_ge _ _)) by lia. replace (a + j - a) with j by lia. reflexivity.
Qed.
Lemma gs_close t X : (forall i, In i (spC (ctl w)) -> even_bounds h i) ->
  (close_feasible t (m_qp (ctl w')) X <->
   close_start t XD (vget (isx0lb s)) (vget (isx0ub s)) X /\
   (forall i, In i (spC (ctl w)) -> grow_close t X (ctrl_part XD X) i) /\
   (spB (ctl w) = [] -> forall k, k < FU -> meets t true (- X (XD + k)%nat)%Qc (ext_opp (vget (qlb (m_qp (ctl w))) (XD + k))) /\
      meets t true (X (XD + k)) (vget (qub (m_qp (ctl w))) (XD + k)))).
Proof using Ac SF FP CA HO RE Ep Is So.
  intro NS. pose proof gs_asm as A. pose proof (ga_dims _ _ _ _ _ _ A) as SD.
  pose proof gs_reg as RI. pose proof (fi_p _ _ _ _ _ _ gs_inv) as [PI _].
  unfold close_feasible. rewrite (stacked_close t false _ _ _ _ _ _ _ X (ga_eq _ _ _ _ _ _ A)), (stacked_close t true _ _ _ _ _ _ _ X (ga_ineq _ _ _ _ _ _ A)).
  pose proof (ri_eq _ RI) as Eq1. pose proof (ri_ineq _ RI) as Eq2. pose proof (ri_b _ RI) as Eq3. cbn [dressw reps ctl wcon] in Eq1, Eq2, Eq3.
  rewrite Eq1, Eq2.
  assert (IQ : forall i, In i (spC (ctl w)) -> ck (wcon w i) = KTrajB -> isIneq (wcon w i) = true).
  { intros i Hi Q. destruct (gs_con i Hi (NS i Hi)) as [d [_ [_ [LF _]]]]. apply (LF Q). }
  assert (NR : forall i, In i (spC (ctl w)) -> nrConstr (wcon w' i) = nrConstr (wcon w i)).
  { intros i Hi. destruct (gs_con i Hi (NS i Hi)) as [d [_ [_ [_ [_ [E _]]]]]]. exact E. }
  assert (INB : forall i, In i (spB (ctl w)) <-> In i (spC (ctl w)) /\ ck (wcon w i) = KCtrlB).
  { intro i. rewrite Eq3, in_of_type. unfold has_type, constraintType. destruct (ck (wcon w i)); destruct (isIneq (wcon w i)); intuition congruence. }
  match goal with |- (?R1 /\ ?R2 /\ ?B <-> _) => 
    assert (HR : R1 /\ R2 <-> forall i, In i (spC (ctl w)) -> ck (wcon w i) <> KCtrlB -> forall r, r < nrConstr (wcon w i) ->
       meets t (isIneq (wcon w i)) (apply XD (at_ (cY (wcon w' i))) X r + apply FU (at_ (cA (wcon w' i))) (ctrl_part XD X) r)%Qc (vget (cz (wcon w' i)) r));
    [|assert (HB : B <-> close_start t XD (vget (isx0lb s)) (vget (isx0ub s)) X /\
       (forall i, In i (spC (ctl w)) -> ck (wcon w i) = KCtrlB -> forall k, k < FU ->
       meets t true (- ctrl_part XD X k)%Qc (ext_opp (vget (clb (wcon w' i)) k)) /\ meets t true (ctrl_part XD X k) (vget (cub (wcon w' i)) k)) /\
       (spB (ctl w) = [] -> forall k, k < FU -> meets t true (- X (XD + k)%nat)%Qc (ext_opp (vget (qlb (m_qp (ctl w))) (XD + k))) /\
          meets t true (X (XD + k)) (vget (qub (m_qp (ctl w))) (XD + k))))]
  end.
  - split.
    + intros [H1 H2] i Hi NB r Hr. rewrite <- (NR i Hi) in Hr. rewrite <- ext_row_apply. destruct (isIneq (wcon w i)) eqn:Qi.
      * apply H2; [|exact Hr]. apply in_of_type. split; [exact Hi|]. unfold has_type, constraintType. rewrite Qi. destruct (ck (wcon w i)); reflexivity || congruence.
      * apply H1; [|exact Hr]. apply in_of_type. split; [exact Hi|]. unfold has_type, constraintType. rewrite Qi.
        destruct (ck (wcon w i)) eqn:Q; try reflexivity; [rewrite IQ in Qi by assumption; discriminate|congruence].
    + intro H. split; intros i Hi r Hr; apply in_of_type in Hi as [Hi T]; rewrite (NR i Hi) in Hr; unfold has_type, constraintType in T; rewrite ext_row_apply.
      * assert (NB : ck (wcon w i) <> KCtrlB) by (intro Q; rewrite Q in T; discriminate).
        assert (Qi : isIneq (wcon w i) = false) by (destruct (ck (wcon w i)), (isIneq (wcon w i)); congruence).
        specialize (H i Hi NB r Hr). rewrite Qi in H. exact H.
      * assert (NB : ck (wcon w i) <> KCtrlB) by (intro Q; rewrite Q in T; discriminate).
        assert (Qi : isIneq (wcon w i) = true) by (destruct (ck (wcon w i)) eqn:Q; try (apply IQ; assumption); destruct (isIneq (wcon w i)); congruence).
        specialize (H i Hi NB r Hr). rewrite Qi in H. exact H.
  - pose proof (pi_b _ _ PI) as LB. cbn [dressw reps ctl] in LB. destruct (ga_lbs _ _ _ _ _ _ A) as [Z1 Z2]. pose proof (ga_bx _ _ _ _ _ _ A) as BX.
    assert (SPLIT : close_bounds t (qlb (m_qp (ctl w'))) (qub (m_qp (ctl w'))) X <->
      close_start t XD (vget (isx0lb s)) (vget (isx0ub s)) X /\
      (forall k, k < FU -> meets t true (- X (XD + k)%nat)%Qc (ext_opp (vget (qlb (m_qp (ctl w'))) (XD + k))) /\
          meets t true (X (XD + k)) (vget (qub (m_qp (ctl w'))) (XD + k)))).
    { unfold close_bounds, close_start. rewrite Z1. split.
      - intro H. split; intros i Hi; [|apply (H (XD + i)); lia]. destruct (BX i Hi) as [<- <-]. apply H. lia.
      - intros [H1 H2] i Hi. destruct (Nat.lt_ge_cases i XD) as [Lt|Ge]; [destruct (BX i Lt) as [-> ->]; apply H1; exact Lt|].
        specialize (H2 (i - XD) ltac:(lia)). replace (XD + (i - XD)) with i in H2 by lia. exact H2. }
    rewrite SPLIT. apply and_iff_compat_l.
    destruct (spB (ctl w)) as [|i0 [|i1 l1]] eqn:Es; [| |cbn in LB; lia].
    + pose proof (ga_b0 _ _ _ _ _ _ A Es) as B0. split.
      * intro H. split; [intros i Hi Q; exfalso; apply (proj2 (INB i)); auto|]. intros _ k Hk. destruct (B0 (XD + k) ltac:(lia)) as [<- <-]. apply H. exact Hk.
      * intros [_ H] k Hk. destruct (B0 (XD + k) ltac:(lia)) as [-> ->]. apply H; [reflexivity|exact Hk].
    + destruct (proj1 (INB i0) (or_introl eq_refl)) as [Hi Q]. pose proof (gs_rcon i0 Hi) as [Sh _].
      assert (NF : nrConstr (wcon w' i0) = FU).
      { rewrite (NR i0 Hi). unfold c_shape in Sh. rewrite Q in Sh. destruct Sh as [_ [-> _]]. symmetry. apply SD. }
      pose proof (ga_b1 _ _ _ _ _ _ A i0 Es) as B1. rewrite NF in B1. split.
      * intro H. split; [|discriminate]. intros i Hi' Q'. assert (In i [i0]) as [<-|[]] by (apply INB; auto).
        intros k Hk. destruct (B1 k Hk) as [<- <-]. exact (H k Hk).
      * intros [H _] k Hk. destruct (B1 k Hk) as [-> ->]. exact (H i0 Hi Q k Hk).
  - rewrite <- and_assoc. rewrite HR, HB. unfold grow_close. split.
    + intros [H1 [H0 [H2 H3]]]. split; [exact H0|]. split; [|exact H3]. intros i Hi. split; auto.
    + intros [H0 [H1 H2]]. split; [intros i Hi; apply (H1 i Hi)|]. split; [exact H0|]. split; [intros i Hi; apply (H1 i Hi)|exact H2].
Qed.

(** what the solver answers nearly satisfies what the user asked *)
Lemma gs_all_met t X : (forall i, In i (spC (ctl w)) -> even_bounds h i) ->
  close_feasible t (m_qp (ctl w')) X ->
  close_start t XD (vget (isx0lb s)) (vget (isx0ub s)) X /\ all_met_from u 1 t ps h (spC (ctl w)) X (ctrl_part XD X).
Proof using Ac SF FP CA HO RE Ep Is So.
  intros NS C. apply (gs_close t X NS) in C as [C0 [C _]]. split; [exact C0|]. intros i d Hi Ed.
  destruct (gs_each i d X (ctrl_part XD X) (met u 1 t) Hi (NS i Hi) Ed) as [E1 E2]. destruct (C i Hi) as [C1 C2].
  destruct (gs_con i Hi (NS i Hi)) as [d' [_ [_ [_ [[N1 N2] _]]]]].
  assert (KC : ck (wcon w i) = KCtrlB \/ ck (wcon w i) <> KCtrlB) by (clear; destruct (ck (wcon w i)); [right|right|right|right|left]; congruence).
  destruct KC as [K|K].
  - apply (E2 K). intros k Hk. destruct (N2 K k Hk) as [Q1 Q2]. destruct (C2 K k Hk) as [M1 M2]. rewrite Q1 in M1. rewrite Q2 in M2.
    split; apply meets_s0; assumption.
  - apply (E1 K). intros r Hr. exact (row_error_met _ _ _ _ _ _ _ _ _ (N1 K r Hr X (ctrl_part XD X)) (C1 K r Hr)).
Qed.
(** what the user asked with the margin of the rounding errors is accepted *)
Lemma gs_feasible X : (forall i, In i (spC (ctl w)) -> even_bounds h i) ->
  (spB (ctl w) <> [] \/ f_stale F reg world0 false h = false) ->
  within_bounds XD (vget (isx0lb s)) (vget (isx0ub s)) X ->
  all_met_from u (- (1)) 0 ps h (spC (ctl w)) X (ctrl_part XD X) -> (spB (ctl w) = [] -> representable FU (ctrl_part XD X)) -> feasible (m_qp (ctl w')) X.
Proof using Ac SF FP CA HO RE Ep Is So.
  intros NS St WB H Re. apply feasible_close. apply (gs_close 0 X NS). split; [|split].
  - intros i Hi. destruct (WB i Hi) as [B1 B2]. split; [apply meets_opp, B1|]. apply meets_0. destruct (vget (isx0ub s) i); exact B2.
  - intros i Hi. destruct (gs_con i Hi (NS i Hi)) as [d [Ed [_ [_ [[N1 N2] _]]]]]. specialize (H i d Hi Ed).
    destruct (gs_each i d X (ctrl_part XD X) (met u (- (1)) 0) Hi (NS i Hi) Ed) as [E1 E2]. split.
    + intros K r Hr. exact (row_error_margin _ _ _ _ _ _ _ _ (N1 K r Hr X (ctrl_part XD X)) (proj2 (E1 K) H r Hr)).
    + intros K k Hk. destruct (N2 K k Hk) as [-> ->]. destruct (proj2 (E2 K) H k Hk) as [M1 M2]. apply meets_s0 in M1. apply meets_s0 in M2. auto.
  - intro Es. destruct St as [St|St]; [congruence|]. pose proof gs_asm as A.
    pose proof (g_free_tail h w FP CA HO RE St) as FT. pose proof (ga_sized _ _ _ _ _ _ A) as [_ [_ [_ [Y1 Y2]]]]. specialize (Re Es).
    assert (XN : XD = n) by apply (ga_dims _ _ _ _ _ _ A).
    intros k Hk. destruct (Re k Hk) as [R1 R2]. destruct (FT (XD + k) ltac:(right; lia)) as [F1 F2]. rewrite F1, F2 by lia.
    split; [apply meets_opp, R1|]. apply meets_0. exact R2.
Qed.
(** ** The objective *)
Lemma gs_cost_data i : In i (spCost (ctl w)) ->
  exists d, cost_data_of h i = Some d /\ cost_alike (k_given (wcost w i)) d /\ veq (kw (wcost w i)) (weights_of h i) /\
    k_inited D (wcost w i) /\ cost_fits ps (k_given (wcost w i)) /\ vsize (kw (wcost w i)) = cost_rows (k_given (wcost w i)).
Proof using Ac SF FP CA HO RE Ep Is So.
  intros Hi. pose proof (ga_dims _ _ _ _ _ _ gs_asm) as SD. pose proof gs_inv as I.
  pose proof (fi_p _ _ _ _ _ _ I) as [PI _]. pose proof (fi_nk _ _ _ _ _ _ I) as CL.
  pose proof (ri_cost _ (pi_reg _ _ PI) i Hi) as Lt. cbn [dressw reps ncost] in Lt. rewrite <- CL in Lt. apply nth_error_Some in Lt.
  assert (exists d, cost_data_of h i = Some d) as [d Ed] by (unfold cost_data_of; destruct (nth_error (new_costs h) i); [eauto|congruence]).
  exists d. destruct (fi_cost _ _ _ _ _ _ I i d Ed) as [G1 G2]. split; [exact Ed|]. split; [exact G1|]. split; [exact G2|].
  pose proof (gs_rcost i Hi) as KI. split; [exact KI|]. split; [|apply (inited_even D); exact KI].
  apply (fits_dims D); [apply same_dims_sym; exact SD|]. apply inited_fits. exact KI.
Qed.
Lemma gs_cost_obj i : fresh_steps ps h (spCost (ctl w)) -> In i (spCost (ctl w)) ->
  k_same (wcost w i) (wcost w' i) /\ k_shape ps (wcost w' i) /\ k_entry ps (wcost w' i) /\
  f_exact u (cost_roundings ps (wcost w i)) ps (wcost w' i) (wcost w' i).
Proof using Ac SF FP CA HO RE Ep Is So.
  intros FS Hi. pose proof gs_asm as A. pose proof (ga_dims _ _ _ _ _ _ A) as SD. pose proof (ga_comp _ _ _ _ _ _ A) as CC.
  destruct (gs_cost_data i Hi) as [d [Ed [G1 [G2 [KI [Fi Wr]]]]]].
  destruct (f_costs_ok u F Ac n m N ps CC SD _ _ (fun i Hi => gs_rcost i Hi)) as [wk [Ek [K1 [_ K3]]]].
  rewrite (ga_cost _ _ _ _ _ _ A) in Ek. injection Ek as <-.
  destruct (K1 i KI) as [Sh En]. pose proof (same_dims_sym _ _ SD) as SD'.
  split; [apply K3|]. split; [exact (k_shape_dims _ _ _ SD' Sh)|]. split; [exact (k_entry_dims _ _ _ SD' En)|].
  apply (f_exact_ext u _ ps (wcost w i)); [apply K3|].
  eapply (f_update_costs_exact u F Ac n m N SF ps CC SD); [exact (ga_cost _ _ _ _ _ _ A)|intros; apply gs_rcost; assumption|exact Hi|].
  assert (PS : k_acc (wcost w i) = per_step ps d).
  { destruct KI as [_ En']. rewrite <- (per_step_alike _ _ _ G1). unfold k_acc, per_step, k_given, k_entry in *.
    assert (X1 : xDim ps = xDim D) by apply SD. assert (X2 : uDim ps = uDim D) by apply SD. rewrite X1, X2.
    destruct (kk (wcost w i)); try reflexivity; rewrite En', negb_involutive; reflexivity. }
  rewrite PS. intro Pp. destruct (FS i d Hi Ed Pp) as [A1 A2]. split; [|exact A2]. exact (fi_zero _ _ _ _ _ _ gs_inv i A1 Hi).
Qed.
(** the value of the problem: a part that only depends on the initial state, and the costs from there *)
Lemma gs_value X : within u q1em6 reg -> fresh_steps ps h (spCost (ctl w)) ->
  let U := ctrl_part XD X in exists R, 
  qp_value (m_qp (ctl w')) X = (objective XD (at_ (qQ (m_qp (ctl w')))) (vget (qc (m_qp (ctl w')))) X + R)%Qc /\
  near u (total_roundings ps h (spCost (ctl w))) R
    (regularization FU U + (total_cost_from ps h (spCost (ctl w)) X U - total_cost_from ps h (spCost (ctl w)) X (fun _ => 0)))%Qc
    (regularization FU U + total_size_from ps h (spCost (ctl w)) X U)%Qc.
Proof using Ac SF FP CA HO RE Ep Is So.
  intros Wr FS U. pose proof gs_asm as A. destruct gs_wf as [WF X0]. pose proof (proj1 Ac) as Hu.
  set (lev := fold_right (fun i m => Nat.max (match cost_data_of h i with Some d => data_roundings ps d | None => 1 end) m) 1 (spCost (ctl w))).
  assert (L1 : 1 <= lev).
  { unfold lev. clear. induction (spCost (ctl w)) as [|a l IH]; cbn [fold_right]; lia. }
  assert (LV : forall i d, In i (spCost (ctl w)) -> cost_data_of h i = Some d -> data_roundings ps d <= lev).
  { unfold lev. clear. induction (spCost (ctl w)) as [|a l IH]; cbn [fold_right]; intros i d Hi Ed; [destruct Hi|].
    destruct Hi as [->|Hi]; [rewrite Ed; lia|]. specialize (IH i d Hi Ed). lia. }
  pose proof (ga_sum _ _ _ _ _ _ A) as GS. cbv zeta in GS. destruct GS as [Q [c [E [R1 [R2 [R3 [R4 [R5 [R6 [V1 [V2 V3]]]]]]]]]]].
  destruct (f_is_value u F reg ps (wcost w') lev (spCost (ctl w)) Q c X U Ac Wr L1) as [_ [_ [_ NV]]]; [|exact E|].
  { intros i Hi. destruct (gs_cost_obj i FS Hi) as [Sm [Sh [En [X1 [X2 [X3 X4]]]]]]. destruct (gs_cost_data i Hi) as [d [Ed [G1 _]]].
    assert (Le : cost_roundings ps (wcost w i) <= lev) by (rewrite given_roundings, (roundings_alike ps _ d G1); eapply LV; eassumption).
    split; [|split].
    - intros a1 b1 Ha Hb. eapply near_mono; [exact Hu|exact (X1 a1 b1 Ha Hb)|exact Le].
    - intros a1 b1 Ha Hb. eapply near_mono; [exact Hu|exact (X2 a1 b1 Ha Hb)|exact Le].
    - intros b1 Hb. eapply near_mono; [exact Hu|exact (X3 b1 Hb)|exact Le]. }
  eexists. split.
  { unfold qp_value. rewrite R6. apply (objective_blocks XD FU _ _ X (fun i j => at_ Q i (XD + j))).
    intros i j Hi Hj. split; [apply V1; lia|]. rewrite V2 by lia. reflexivity. }
  unfold total_roundings. change (fold_right _ 1 (spCost (ctl w))) with lev.
  assert (OE : objective FU (fun i j => at_ (qQ (m_qp (ctl w'))) (XD + i) (XD + j)) (fun j => sum XD (fun i => at_ Q i (XD + j)%nat * X i) + vget (qc (m_qp (ctl w'))) (XD + j)%nat)%Qc U
    = objective FU (fun i j => at_ Q (XD + i) (XD + j)) (fun j => sum XD (fun i => at_ Q i (XD + j)%nat * X i) + vget c (XD + j)%nat)%Qc U).
  { apply CostMeaning.objective_ext; intros; [apply V1; lia|]. rewrite V3 by lia. reflexivity. }
  fold U. rewrite OE.
  eapply near_up; [exact Hu|eapply near_eq; [exact NV|..]|].
  - f_equal. rewrite fsum_lsum. unfold total_cost_from. rewrite <- lsum_sub. apply lsum_ext. intros i Hi.
    destruct (gs_cost_obj i FS Hi) as [Sm [Sh [En _]]]. destruct (gs_cost_data i Hi) as [d [Ed [G1 [G2 [KI [Fi Wr']]]]]].
    destruct (cost_values_x ps (wcost w' i) X U WF X0 (proj1 (proj2 (proj2 Sh))) En) as [W1 _]. rewrite W1, Ed.
    rewrite !given_value. rewrite (k_given_eq (wcost w i) (wcost w' i)) by apply Sm.
    replace (kw (wcost w' i)) with (kw (wcost w i)) by (symmetry; apply Sm).
    rewrite !(cost_value_alike _ _ d _ (weights_of h i) _ _ G1 Fi Wr' G2). reflexivity.
  - reflexivity.
  - apply Qcplus_le_compat; [apply Qcle_refl|]. rewrite fsum_lsum. unfold total_size_from. apply lsum_mono. intros i Hi.
    destruct (gs_cost_obj i FS Hi) as [Sm [Sh [En _]]]. destruct (gs_cost_data i Hi) as [d [Ed [G1 [G2 [KI [Fi Wr']]]]]].
    destruct (cost_values_x ps (wcost w' i) X U WF X0 (proj1 (proj2 (proj2 Sh))) En) as [_ W2]. eapply Qcle_trans; [exact W2|].
    rewrite Ed. rewrite given_size. rewrite (k_given_eq (wcost w i) (wcost w' i)) by apply Sm.
    replace (kw (wcost w' i)) with (kw (wcost w i)) by (symmetry; apply Sm).
    rewrite (cost_size_alike _ _ d _ (weights_of h i) _ _ G1 Fi Wr' G2). apply Qcle_refl.
Qed.
End Solve.

(** ** Rows and sizes depend only on the entries of the initial state and of the control that exist *)
Section Ext.
Variables (ps : psys) (x x' U U' : nat -> Qc).
Hypothesis R : ps_wf ps.
Hypothesis Hx : forall i, i < xDim ps -> x i = x' i.
Hypothesis HU : forall j, j < fullUDim ps -> U j = U' j.
Lemma vabs_ext k (a b : nat -> Qc) : (forall i, i < k -> a i = b i) -> forall i, i < k -> vabs a i = vabs b i.
Proof using. intros H i Hi. unfold vabs. rewrite H by exact Hi. reflexivity. Qed.
Lemma state_of_ext k i : k <= nrUStep ps -> i < xDim ps -> state_of ps x U k i = state_of ps x' U' k i.
Proof using R Hx HU.
  intros Hk Hi. apply state_at_ext; [exact Hx| |exact Hi]. intros c Hc. apply HU. rewrite (wf_fu _ R). nia.
Qed.
Lemma stacked_ext r : r < fullXDim ps -> stacked_state ps x U r = stacked_state ps x' U' r.
Proof using R Hx HU.
  intro Hr. rewrite (wf_fx _ R), (wf_nx _ R) in Hr. assert (Px : 0 < xDim ps) by (destruct (xDim ps); lia).
  apply state_of_ext; [|apply Nat.mod_upper_bound; lia].
  assert (r / xDim ps < nrUStep ps + 1) by (apply Nat.div_lt_upper_bound; [lia|rewrite Nat.mul_comm; lia]). lia.
Qed.
Lemma control_at_ext (V V' : nat -> Qc) k j : (forall j, j < fullUDim ps -> V j = V' j) -> k < nrUStep ps -> j < uDim ps -> control_at (uDim ps) V k j = control_at (uDim ps) V' k j.
Proof using R. intros H Hk Hj. apply H. rewrite (wf_fu _ R). nia. Qed.
Lemma size_of_ext k i : k <= nrUStep ps -> i < xDim ps -> size_of ps x U k i = size_of ps x' U' k i.
Proof using R Hx HU.
  intros Hk Hi. unfold size_of. apply state_at_ext; [apply vabs_ext, Hx| |exact Hi]. intros c Hc. unfold vabs. rewrite HU; [reflexivity|]. rewrite (wf_fu _ R). nia.
Qed.
Lemma stacked_size_ext r : r < fullXDim ps -> stacked_size ps x U r = stacked_size ps x' U' r.
Proof using R Hx HU.
  intro Hr. rewrite (wf_fx _ R), (wf_nx _ R) in Hr. assert (Px : 0 < xDim ps) by (destruct (xDim ps); lia).
  apply size_of_ext; [|apply Nat.mod_upper_bound; lia].
  assert (r / xDim ps < nrUStep ps + 1) by (apply Nat.div_lt_upper_bound; [lia|rewrite Nat.mul_comm; lia]). lia.
Qed.
Lemma each_row_ext1 d (P : row_pred) : each_row ps d x U P -> each_row ps d x' U' P.
Proof using R Hx HU.
  assert (NX := wf_nx _ R). assert (FX := wf_fx _ R). assert (VU := vabs_ext (fullUDim ps) U U' HU).
  assert (AS : forall k M i, k <= nrUStep ps -> apply (xDim ps) M (state_of ps x U k) i = apply (xDim ps) M (state_of ps x' U' k) i)
    by (intros; apply apply_ext_v; intros; apply state_of_ext; assumption).
  assert (BS : forall k M i, k <= nrUStep ps -> apply (xDim ps) M (size_of ps x U k) i = apply (xDim ps) M (size_of ps x' U' k) i)
    by (intros; apply apply_ext_v; intros; apply size_of_ext; assumption).
  assert (AT : forall M i, apply (fullXDim ps) M (stacked_state ps x U) i = apply (fullXDim ps) M (stacked_state ps x' U') i)
    by (intros; apply apply_ext_v; intros; apply stacked_ext; assumption).
  assert (BT : forall M i, apply (fullXDim ps) M (stacked_size ps x U) i = apply (fullXDim ps) M (stacked_size ps x' U') i)
    by (intros; apply apply_ext_v; intros; apply stacked_size_ext; assumption).
  assert (AC : forall k M i, k < nrUStep ps -> apply (uDim ps) M (control_at (uDim ps) U k) i = apply (uDim ps) M (control_at (uDim ps) U' k) i)
    by (intros; apply apply_ext_v; intros; apply (control_at_ext U U' _ _ HU); assumption).
  assert (BC : forall k M i, k < nrUStep ps -> apply (uDim ps) M (control_at (uDim ps) (vabs U) k) i = apply (uDim ps) M (control_at (uDim ps) (vabs U') k) i)
    by (intros; apply apply_ext_v; intros; apply (control_at_ext _ _ _ _ VU); assumption).
  assert (AU : forall M i, apply (fullUDim ps) M U i = apply (fullUDim ps) M U' i) by (intros; apply apply_ext_v; assumption).
  assert (BU : forall M i, apply (fullUDim ps) M (vabs U) i = apply (fullUDim ps) M (vabs U') i) by (intros; apply apply_ext_v; assumption).
  destruct d as [E f q|G f q|E G f q|lo up|lo up]; cbn [each_row]; cbv zeta; [destruct (Nat.eqb _ _)|destruct (Nat.eqb _ _)|destruct (Nat.eqb _ _ && Nat.eqb _ _)| |destruct (Nat.eqb _ _)]; intro H.
  - intros k i Hk Hi. rewrite <- AS, <- BS by lia. auto.
  - intros i Hi. rewrite <- AT, <- BT. auto.
  - intros k i Hk Hi. rewrite <- AC by exact Hk. auto.
  - intros i Hi. rewrite <- AU. auto.
  - intros k i Hk Hi. rewrite <- AS, <- AC, <- BS, <- BC by lia. auto.
  - intros i Hi. rewrite <- AT, <- AU, <- BT, <- BU. auto.
  - intros k i Hk Hi. rewrite <- (state_of_ext), <- size_of_ext by lia. auto.
  - intros k i Hk Hi. rewrite <- (control_at_ext U U' k i HU) by assumption. auto.
  - intros i Hi. rewrite <- HU by exact Hi. auto.
Qed.
Lemma cost_size_ext d w : cost_size ps d w x U = cost_size ps d w x' U'.
Proof using R Hx HU.
  assert (NX := wf_nx _ R). assert (FX := wf_fx _ R). assert (VU := vabs_ext (fullUDim ps) U U' HU).
  assert (BS : forall k M i, k <= nrUStep ps -> apply (xDim ps) M (size_of ps x U k) i = apply (xDim ps) M (size_of ps x' U' k) i)
    by (intros; apply apply_ext_v; intros; apply size_of_ext; assumption).
  assert (BT : forall M i, apply (fullXDim ps) M (stacked_size ps x U) i = apply (fullXDim ps) M (stacked_size ps x' U') i)
    by (intros; apply apply_ext_v; intros; apply stacked_size_ext; assumption).
  assert (BC : forall k M i, k < nrUStep ps -> apply (uDim ps) M (control_at (uDim ps) (vabs U) k) i = apply (uDim ps) M (control_at (uDim ps) (vabs U') k) i)
    by (intros; apply apply_ext_v; intros; apply (control_at_ext _ _ _ _ VU); assumption).
  assert (BU : forall M i, apply (fullUDim ps) M (vabs U) i = apply (fullUDim ps) M (vabs U') i) by (intros; apply apply_ext_v; assumption).
  destruct d as [M p|M p|M p|M Nm p]; cbn [cost_size]; unfold traj_size, target_size, ctrl_size, mixed_size;
    repeat (match goal with |- context [if ?b then _ else _] => destruct b end);
    try (apply sum_ext; intros k Hk); apply EndToEndMain.wsq_ext; intros i Hi; try reflexivity;
    rewrite ?BS, ?BT, ?BC, ?BU by lia; reflexivity.
Qed.
Lemma cost_value_ext d w : cost_value ps d w x U = cost_value ps d w x' U'.
Proof using R Hx HU.
  assert (NX := wf_nx _ R). assert (FX := wf_fx _ R).
  assert (AS : forall k M i, k <= nrUStep ps -> apply (xDim ps) M (state_of ps x U k) i = apply (xDim ps) M (state_of ps x' U' k) i)
    by (intros; apply apply_ext_v; intros; apply state_of_ext; assumption).
  assert (AT : forall M i, apply (fullXDim ps) M (stacked_state ps x U) i = apply (fullXDim ps) M (stacked_state ps x' U') i)
    by (intros; apply apply_ext_v; intros; apply stacked_ext; assumption).
  assert (AC : forall k M i, k < nrUStep ps -> apply (uDim ps) M (control_at (uDim ps) U k) i = apply (uDim ps) M (control_at (uDim ps) U' k) i)
    by (intros; apply apply_ext_v; intros; apply (control_at_ext _ _ _ _ HU); assumption).
  assert (AU : forall M i, apply (fullUDim ps) M U i = apply (fullUDim ps) M U' i) by (intros; apply apply_ext_v; assumption).
  destruct d as [M p|M p|M p|M Nm p]; cbn [cost_value]; unfold traj_cost, target_cost, ctrl_cost, mixed_cost;
    repeat (match goal with |- context [if ?b then _ else _] => destruct b end);
    try (apply sum_ext; intros k Hk); apply EndToEndMain.wsq_ext; intros i Hi; try reflexivity;
    rewrite ?AS, ?AT, ?AC, ?AU by lia; reflexivity.
Qed.
End Ext.
Lemma each_row_ext ps x x' U U' d P : ps_wf ps -> (forall i, i < xDim ps -> x i = x' i) -> (forall j, j < fullUDim ps -> U j = U' j) ->
  (each_row ps d x U P <-> each_row ps d x' U' P).
Proof. intros R Hx HU. split; apply each_row_ext1; auto; intros; symmetry; auto. Qed.
