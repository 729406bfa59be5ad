(** FloatValue.v -- C71: the costs of one solve of a controller that rounds, and their sizes. *)
From Coq Require Import Qcabs.
From Verif Require Import Base Eigen Spec Preview SpecApi PreviewProofs AutoSpan AutoSpanProofs Constraints ConstraintProofs
  SpecConstraints ConstraintMeaning Checkers Costs SpecCosts CostProofs CostMeaning Properties_Costs Controller Registry SpecController Assembly
  Results SpecProtocol Protocol Properties_Protocol SpecEndToEnd SpanData Properties_Registry EndToEnd EndToEndQP EndToEndRows EndToEndMain.
From Verif Require Import Floats SpecFloats FloatProofs FloatPreview FloatConstraints FloatRows Properties_Floats
  FloatCosts SpecFloatCosts FloatCostProofs FloatCostRun FloatController SpecFloatRun FloatProtocol FloatTrace FloatMeaning.
Open Scope nat_scope.
Open Scope list_scope.

Lemma k_same_sym a b : k_same a b -> k_same b a.
Proof. unfold k_same. intros [A [B [C [E [G H]]]]]. repeat split; congruence. Qed.

Lemma f_update_costs_exact u F (Ac : accurate u F) n m N (SF : sizes_fit n m N) ps : computed F ps -> same_dims ps (dps n m N) ->
  forall l wk wk', f_update_costs F ps l wk = Some wk' -> (forall i, In i l -> k_inited (dps n m N) (wk i)) ->
  forall i, In i l -> (k_acc (wk i) = true -> k_zero (dps n m N) (wk i) /\ cnt i l = 1) ->
    f_exact u (cost_roundings ps (wk i)) ps (wk i) (wk' i).
Proof.
  intros C SD l wk wk' E KI i Hi Ha. pose proof (same_dims_sym _ _ SD) as SD'.
  cut (forall c0 l wk wk', f_update_costs F ps l wk = Some wk' -> (forall i, In i l -> k_inited (dps n m N) (wk i)) -> k_same c0 (wk i) ->
         (f_exact u (cost_roundings ps c0) ps c0 (wk i) /\ (k_acc c0 = false \/ cnt i l = 0)) \/
         (In i l /\ (k_acc c0 = true -> k_zero (dps n m N) (wk i) /\ cnt i l = 1)) ->
         f_exact u (cost_roundings ps c0) ps c0 (wk' i)).
  { intro G. eapply (G (wk i)); [exact E|exact KI|apply k_same_refl|]. right. auto. }
  clear l wk wk' E KI Hi Ha. intro c0. unfold f_update_costs. induction l as [|x t IH]; intros wk wk' E KI Sm H; cbn [for_list] in E.
  - injection E as <-. destruct H as [[H _]|[[] _]]. exact H.
  - destruct (f_cost_ok u F Ac n m N ps (wk x) C SD (KI x (or_introl eq_refl))) as [c [Ec [KC Nc]]].
    rewrite Ec in E. cbn [obind] in E.
    assert (KI' : forall k, In k t -> k_inited (dps n m N) (upd wk x c k)).
    { intros k Hk. unfold upd. destruct (Nat.eqb_spec k x) as [Q|Q]; [exact KC|apply KI; right; exact Hk]. }
    apply (IH _ _ E KI'); unfold upd; destruct (Nat.eqb_spec i x) as [Q|Ne].
    + subst x. eapply k_same_trans; [exact Sm|exact Nc].
    + exact Sm.
    + subst x. assert (CT : cnt i (i :: t) = S (cnt i t)) by (unfold cnt; cbn; destruct (Nat.eq_dec i i); congruence).
      assert (Ak : k_acc (wk i) = k_acc c0) by (unfold k_acc; destruct Sm as [-> [-> _]]; reflexivity).
      assert (Zx : k_zero (dps n m N) (wk i) -> f_exact u (cost_roundings ps c0) ps c0 c).
      { intro Z. destruct (KI i (or_introl eq_refl)) as [Sh En].
        destruct (f_update_ok u F ps (wk i) Ac C (k_shape_dims _ _ _ SD' Sh) (k_entry_dims _ _ _ SD' En) (k_zero_dims _ _ _ SD' Z)) as [c1 [E1 [_ [_ X]]]].
        rewrite Ec in E1. injection E1 as <-. apply (f_exact_ext u _ ps (wk i)); [apply k_same_sym; exact Sm|].
        assert (CR : cost_roundings ps (wk i) = cost_roundings ps c0).
        { apply (cost_roundings_dims ps ps); [repeat split|apply Sm..]. }
        rewrite <- CR. exact X. }
      destruct (k_acc c0) eqn:A.
      * destruct H as [[_ [H|H]]|[_ H]]; [discriminate|lia|]. destruct (H eq_refl) as [Z C1]. left. split; [apply Zx, Z|]. right. lia.
      * left. split; [apply Zx; intro Q; congruence|left; reflexivity].
    + assert (CT : cnt i (x :: t) = cnt i t) by (unfold cnt; cbn; destruct (Nat.eq_dec x i); congruence).
      rewrite CT in H. destruct H as [H|[[H|H] H']]; [left; exact H|congruence|right; auto].
Qed.

(** the size and the roundings of a cost depend on the data only through their entries *)
Lemma given_size ps c x U : doc_size ps c x U = cost_size ps (k_given c) (kw c) x U.
Proof. unfold doc_size, k_given. destruct (kk c); reflexivity. Qed.
Lemma given_roundings ps c : cost_roundings ps c = data_roundings ps (k_given c).
Proof. unfold cost_roundings, data_roundings, k_given. destruct (kk c); reflexivity. Qed.
Lemma roundings_alike ps d e : cost_alike d e -> data_roundings ps d = data_roundings ps e.
Proof.
  destruct d, e; cbn; try tauto; intro H; repeat match type of H with _ /\ _ => let A := fresh "A" in destruct H as [A H] end;
    repeat match goal with A : meq ?a ?b |- _ => rewrite <- (proj1 (proj2 A)); clear A | A : veq ?a ?b |- _ => rewrite <- (proj1 A); clear A end; reflexivity.
Qed.
Lemma vabs_alike w w' i : veq w w' -> i < vsize w -> vabs (vget w) i = vabs (vget w') i.
Proof. intros [_ W] Hi. unfold vabs. rewrite W by exact Hi. reflexivity. Qed.
Ltac size_row A1 A2 Wq E E' :=
  rewrite ?(apply_mabs_alike _ E E') by (assumption || lia); rewrite (proj2 A2) by lia; reflexivity.
Lemma cost_size_alike ps d e w w' x U : cost_alike d e -> cost_fits ps d -> vsize w = cost_rows d -> veq w w' ->
  cost_size ps d w x U = cost_size ps e w' x U.
Proof.
  intros A V Sw W. destruct d as [E f|E f|E f|E G f], e as [E' f'|E' f'|E' f'|E' G' f']; cbn [cost_alike] in A; try tauto; cbn [cost_fits cost_size] in *; unfold cost_rows in Sw; cbn in Sw.
  - destruct A as [A1 A2]. unfold traj_size. pose proof A1 as [R [C _]]. rewrite <- R, <- C. destruct V as [V1 V2].
    destruct (Nat.eqb_spec (cols E) (xDim ps)) as [Q|Q]; [apply sum_ext; intros k Hk|]; (apply EndToEndMain.wsq_ext; intros i Hi; [apply vabs_alike; [exact W|lia]|]);
      rewrite (apply_mabs_alike _ E E') by (assumption || lia); rewrite (proj2 A2 i) by lia; reflexivity.
  - destruct A as [A1 A2]. unfold target_size. pose proof A1 as [R [C _]]. rewrite <- R. destruct V as [V1 V2].
    apply EndToEndMain.wsq_ext; intros i Hi; [apply vabs_alike; [exact W|lia]|].
      rewrite (apply_mabs_alike _ E E') by (assumption || lia); rewrite (proj2 A2 i) by lia; reflexivity.
  - destruct A as [A1 A2]. unfold ctrl_size. pose proof A1 as [R [C _]]. rewrite <- R, <- C. destruct V as [V1 V2].
    destruct (Nat.eqb_spec (cols E) (uDim ps)) as [Q|Q]; [apply sum_ext; intros k Hk|]; (apply EndToEndMain.wsq_ext; intros i Hi; [apply vabs_alike; [exact W|lia]|]);
      rewrite (apply_mabs_alike _ E E') by (assumption || lia); rewrite (proj2 A2 i) by lia; reflexivity.
  - destruct A as [A1 [A2 A3]]. unfold mixed_size. pose proof A1 as [R [C _]]. pose proof A2 as [R' [C' _]]. rewrite <- R, <- C, <- C'. destruct V as [V1 [V2 V3]].
    destruct (Nat.eqb_spec (cols E) (xDim ps)) as [Q|Q], (Nat.eqb_spec (cols G) (uDim ps)) as [Q'|Q']; cbn [andb]; [apply sum_ext; intros k Hk| | |]; (apply EndToEndMain.wsq_ext; intros i Hi; [apply vabs_alike; [exact W|lia]|]);
      rewrite (apply_mabs_alike _ E E'), (apply_mabs_alike _ G G') by (assumption || lia); rewrite (proj2 A3 i) by lia; reflexivity.
Qed.

(** the value of one cost *)
Open Scope Qc_scope.
Lemma cost_values ps c U : ps_wf ps -> vsize (x0 ps) = xDim ps -> k_dims ps c -> k_entry ps c ->
  objective (fullUDim ps) (kQf (pex ps) c) (xc ps c) U
    = doc_cost ps c (vget (x0 ps)) U - doc_cost ps c (vget (x0 ps)) (fun _ => 0) /\
  objective (fullUDim ps) (kQf (pab ps) (absC c)) (mc ps c) (vabs U) <= doc_size ps c (vget (x0 ps)) U.
Proof.
  intros W X0 D En.
  assert (Rx : ready (pex ps)) by (apply closed_ready; assumption).
  assert (Ra : ready (pab ps)) by (apply closed_ready; [exact W|exact X0]).
  assert (Da : k_dims (pab ps) (absC c)) by (unfold k_dims in *; cbn; destruct (kk c); exact D).
  assert (Ea : k_entry (pab ps) (absC c)) by (unfold k_entry in *; cbn; destruct (kk c); exact En).
  split.
  - rewrite <- !(doc_pex ps). exact (form_doc (pex ps) c (vget (x0 ps)) U Rx D En).
  - rewrite <- doc_pab.
    pose proof (form_doc (pab ps) (absC c) (vabs (vget (x0 ps))) (vabs U) Ra Da Ea) as G0.
    change (objective (fullUDim ps) (kQf (pab ps) (absC c)) (mc ps c) (vabs U)
      = doc_cost (pab ps) (absC c) (vabs (vget (x0 ps))) (vabs U) - doc_cost (pab ps) (absC c) (vabs (vget (x0 ps))) (fun _ => 0)) in G0.
    rewrite G0.
    assert (G : 0 <= doc_cost (pab ps) (absC c) (vabs (vget (x0 ps))) (fun _ => 0)).
    { apply doc_nonneg; try assumption. intros r _. apply Qcabs_nonneg. }
    revert G. generalize (doc_cost (pab ps) (absC c) (vabs (vget (x0 ps))) (fun _ => 0))
      (doc_cost (pab ps) (absC c) (vabs (vget (x0 ps))) (vabs U)). qc_lra.
Qed.
Lemma fsum_map {A B} (g : A -> B) l f : fsum (map g l) f = fsum l (fun a => f (g a)).
Proof. unfold fsum. induction l as [|a l IH]; cbn [map fold_right]; [reflexivity|]. rewrite IH. reflexivity. Qed.
Lemma fsum_lsum l f : fsum l f = SpecController.lsum l f.
Proof. unfold fsum. induction l as [|a l IH]; cbn [fold_right SpecController.lsum]; [reflexivity|]. rewrite IH. reflexivity. Qed.
Lemma lsum_mono l f g : (forall i, In i l -> f i <= g i) -> SpecController.lsum l f <= SpecController.lsum l g.
Proof.
  induction l as [|a l IH]; intro H; cbn [SpecController.lsum]; [apply Qcle_refl|].
  apply Qcplus_le_compat; [apply H; left; reflexivity|]. apply IH. intros i Hi. apply H. right. exact Hi.
Qed.
(** the objective: the regularization and the sum of the costs *)
Lemma f_sum_near u F reg ps (wk : nat -> cost) lev (l : list nat) : accurate u F -> within u q1em6 reg -> (1 <= lev)%nat ->
  (forall i, In i l -> s_near u lev (fullUDim ps) (kQ (wk i), kc (wk i)) (kQf (pex ps) (wk i)) (kQf (pab ps) (absC (wk i))) (xc ps (wk i)) (mc ps (wk i))) ->
  exists Q c, f_go F 0 (map wk l) (mscal reg (mident (fullUDim ps) (fullUDim ps)), vconst (fullUDim ps) 0) = Some (Q, c) /\
    rows Q = fullUDim ps /\ cols Q = fullUDim ps /\ vsize c = fullUDim ps /\
    forall U, near u (lev + 2 * length l) (objective (fullUDim ps) (at_ Q) (vget c) U)
      (regularization (fullUDim ps) U + fsum l (fun i => objective (fullUDim ps) (kQf (pex ps) (wk i)) (xc ps (wk i)) U))
      (regularization (fullUDim ps) U + fsum l (fun i => objective (fullUDim ps) (kQf (pab ps) (absC (wk i))) (mc ps (wk i)) (vabs U))).
Proof.
  intros Ac Wr L N. pose proof (proj1 Ac) as Hu. set (FU := fullUDim ps) in *.
  assert (S0 : s_near u lev FU (mscal reg (mident FU FU), vconst FU 0)
     (fun i j => q1em6 * (if Nat.eqb i j then 1 else 0)) (fun i j => q1em6 * (if Nat.eqb i j then 1 else 0)) (fun _ => 0) (fun _ => 0)).
  { split; [reflexivity|]. split; [reflexivity|]. split; [reflexivity|]. cbn [fst snd at_ vget mscal mident vconst]. split.
    - intros i j _ _. destruct (Nat.eqb i j).
      + rewrite !Qcmult_1_r. eapply near_mono; [exact Hu|apply (near_round u Hu 0 q1em6)|exact L].
        * apply near_refl; [exact Hu|]. rewrite Qcabs_pos by exact q1em6_nonneg. apply Qcle_refl.
        * exact Wr.
      + rewrite !Qcmult_0_r. apply near_0. exact Hu.
    - intros j _. apply near_0. exact Hu. }
  assert (N' : Forall (fun c => s_near u lev FU (kQ c, kc c) (kQf (pex ps) c) (kQf (pab ps) (absC c)) (xc ps c) (mc ps c)) (map wk l)).
  { apply Forall_forall. intros c Hc. apply in_map_iff in Hc as [i [<- Hi]]. apply N. exact Hi. }
  destruct (f_go_near u F FU lev (map wk l) (fun c => kQf (pex ps) c) (fun c => kQf (pab ps) (absC c)) (xc ps) (mc ps) Ac N' 0 lev _ _ _ _ _ (Nat.le_refl _) S0) as [[Q c] [E [T1 [T2 [T3 [T4 T5]]]]]].
  exists Q, c. split; [exact E|]. split; [exact T1|]. split; [exact T2|]. split; [exact T3|]. intro U.
  rewrite map_length in T4, T5.
  eapply near_up; [exact Hu|eapply near_eq|].
  - apply (objective_near u (lev + 2 * length l) FU _ _ _ _ _ _ U Hu T4 T5).
  - rewrite objective_add, objective_ident, objective_fsum, fsum_map. reflexivity.
  - rewrite objective_add, objective_ident, objective_fsum, fsum_map. reflexivity.
  - unfold regularization. apply Qcplus_le_compat; [|apply Qcle_refl].
    assert (Es : sum FU (fun i => vabs U i * vabs U i) = sum FU (fun i => U i * U i)).
    { apply sum_ext. intros i _. unfold vabs. rewrite <- Qcabs_Qcmult. apply Qcabs_pos. apply qc_sq_nonneg. }
    rewrite Es. apply Qcle_refl.
Qed.
Close Scope Qc_scope.
