(** Coordinates.v -- C53: the same problem in other state coordinates. *)
From Verif Require Import Base Eigen Spec Preview SpecApi AutoSpan Constraints Costs SpecConstraints SpecCosts Controller SpecController
  SpecProtocol SpecEndToEnd StateExt SpecMeaning.

Section Coordinates.
Variables (T : nat -> nat -> Qc) (p1 p2 : psys).
Hypotheses (R1 : ready p1) (R2 : ready p2) (OC : other_coordinates T p1 p2).
Notation x1 := (vget (x0 p1)).
Notation x2 := (vget (x0 p2)).

Lemma oc_nx : nrXStep p1 = nrXStep p2.
Proof using R1 R2 OC. rewrite (rd_nx _ R1), (rd_nx _ R2). destruct OC as [_ [-> _]]. reflexivity. Qed.
Lemma oc_fu : fullUDim p1 = fullUDim p2.
Proof using R1 R2 OC. rewrite (rd_fu _ R1), (rd_fu _ R2). destruct OC as [-> [-> _]]. reflexivity. Qed.
Lemma coordinates_state U k i : i < xDim p1 -> state_of p1 x1 U k i = apply (xDim p2) T (state_of p2 x2 U k) i.
Proof using OC.
  revert i. induction k as [|k IH]; intros i Hi; destruct OC as [EU [_ [HA [HB [Hd Hx]]]]].
  - exact (Hx i Hi).
  - unfold state_of. cbn [state_at]. fold (state_of p1 x1 U k). fold (state_of p2 x2 U k). unfold apply. rewrite (Hd i Hi).
    set (n1 := xDim p1) in *. set (n2 := xDim p2) in *. rewrite <- EU. set (m := uDim p1) in *.
    assert (EA : sum n1 (fun j => at_ (psA p1) i j * state_of p1 x1 U k j)%Qc = sum n2 (fun l => T i l * sum n2 (fun j => at_ (psA p2) l j * state_of p2 x2 U k j))%Qc).
    { rewrite (sum_ext n1 _ (fun j => sum n2 (fun l => (at_ (psA p1) i j * T j l) * state_of p2 x2 U k l)%Qc)).
      2:{ intros j Hj. rewrite (IH j Hj). unfold apply. rewrite <- sum_scal_l. apply sum_ext. intros. ring. }
      rewrite sum_swap. rewrite (sum_ext n2 _ (fun l => sum n2 (fun j => (T i j * at_ (psA p2) j l) * state_of p2 x2 U k l)%Qc)).
      2:{ intros l Hl. rewrite !sum_scal_r. rewrite (HA i l Hi Hl). reflexivity. }
      rewrite sum_swap. apply sum_ext. intros l Hl. rewrite <- sum_scal_l. apply sum_ext. intros. ring. }
    assert (EB : sum m (fun j => at_ (psB p1) i j * U (k * m + j)%nat)%Qc = sum n2 (fun l => T i l * sum m (fun j => at_ (psB p2) l j * U (k * m + j)%nat))%Qc).
    { rewrite (sum_ext m _ (fun j => sum n2 (fun l => T i l * (at_ (psB p2) l j * U (k * m + j)%nat))%Qc)).
      2:{ intros j Hj. rewrite (HB i j Hi Hj), <- sum_scal_r. apply sum_ext. intros. ring. }
      rewrite sum_swap. apply sum_ext. intros l Hl. rewrite sum_scal_l. reflexivity. }
    rewrite EA, EB, <- !sum_add. apply sum_ext. intros. ring.
Qed.
Lemma reads_step_apply E1 E2 i U k : reads_step T p1 p2 E1 E2 -> i < rows E1 ->
  apply (xDim p1) (at_ E1) (state_of p1 x1 U k) i = apply (xDim p2) (at_ E2) (state_of p2 x2 U k) i.
Proof using OC.
  intros [_ [_ [_ H]]] Hi. unfold apply.
  rewrite (sum_ext (xDim p1) _ (fun j => sum (xDim p2) (fun l => (at_ E1 i j * T j l) * state_of p2 x2 U k l)%Qc)).
  2:{ intros j Hj. rewrite (coordinates_state U k j Hj). unfold apply. rewrite <- sum_scal_l. apply sum_ext. intros. ring. }
  rewrite sum_swap. apply sum_ext. intros l Hl. rewrite sum_scal_r, (H i l Hi Hl). reflexivity.
Qed.
Lemma stacked_at p x U k j : j < xDim p -> stacked_state p x U (k * xDim p + j) = state_of p x U k j.
Proof using. intro Hj. unfold stacked_state. rewrite Nat.div_add_l, Nat.div_small, Nat.add_0_r by lia. rewrite Nat.add_comm, Nat.mod_add, Nat.mod_small by lia. reflexivity. Qed.
Lemma reads_horizon_apply E1 E2 i U : reads_horizon T p1 p2 E1 E2 -> i < rows E1 ->
  apply (fullXDim p1) (at_ E1) (stacked_state p1 x1 U) i = apply (fullXDim p2) (at_ E2) (stacked_state p2 x2 U) i.
Proof using R1 R2 OC.
  intros [_ [_ [_ H]]] Hi. unfold apply. rewrite (rd_fx _ R1), (rd_fx _ R2), (Nat.mul_comm (xDim p1)), (Nat.mul_comm (xDim p2)), !sum_blocks, <- oc_nx.
  apply sum_ext. intros k Hk.
  rewrite (sum_ext (xDim p1) _ (fun j => sum (xDim p2) (fun l => (at_ E1 i (k * xDim p1 + j)%nat * T j l) * state_of p2 x2 U k l)%Qc)).
  2:{ intros j Hj. rewrite stacked_at by exact Hj. rewrite (coordinates_state U k j Hj). unfold apply. rewrite <- sum_scal_l. apply sum_ext. intros. ring. }
  rewrite sum_swap. apply sum_ext. intros l Hl. rewrite sum_scal_r, (H i k l Hi Hk Hl). rewrite stacked_at by exact Hl. reflexivity.
Qed.
Lemma reads_cond E1 E2 : reads T p1 p2 E1 E2 -> Nat.eqb (cols E1) (xDim p1) = Nat.eqb (cols E2) (xDim p2).
Proof using.
  intros [[_ [-> [-> _]]]|[_ [A [B _]]]]; [rewrite !Nat.eqb_refl; reflexivity|].
  apply Nat.eqb_neq in A, B. rewrite A, B. reflexivity.
Qed.
Lemma coordinates_imposes d1 d2 U : con_reads T p1 p2 d1 d2 -> (imposes p1 d1 x1 U <-> imposes p2 d2 x2 U).
Proof using R1 R2 OC.
  intro H. destruct OC as [EU [EN _]]. pose proof oc_nx as NX. pose proof oc_fu as FU.
  destruct d1 as [E1 f1 b1|G1 f1 b1|E1 G1 f1 b1|lo up|lo up]; cbn in H.
  - destruct d2 as [E2 f2 b2| | | |]; try contradiction. destruct H as [RD [<- <-]]. cbn [imposes means]. unfold traj_means. rewrite <- (reads_cond _ _ RD), <- NX.
    assert (RW : rows E1 = rows E2) by (destruct RD as [Q|Q]; apply Q). rewrite <- RW.
    destruct (Nat.eqb_spec (cols E1) (xDim p1)) as [Q|Q].
    + destruct RD as [RD|RD]; [|destruct (proj1 (proj2 RD) Q)]. split; intros K k i Hk Hi; specialize (K k i Hk Hi); rewrite (reads_step_apply E1 E2 i U k RD Hi) in *; exact K.
    + destruct RD as [RD|RD]; [destruct (Q (proj1 (proj2 RD)))|]. split; intros K i Hi; specialize (K i Hi); rewrite (reads_horizon_apply E1 E2 i U RD Hi) in *; exact K.
  - subst d2. cbn [imposes means]. unfold ctrl_means. rewrite <- EU, <- EN, <- FU. reflexivity.
  - destruct d2 as [| |E2 G2 f2 b2| |]; try contradiction. destruct H as [RD [<- [<- <-]]]. cbn [imposes means]. unfold mixed_means.
    assert (RD' : reads T p1 p2 E1 E2) by (destruct RD as [[Q _]|Q]; [left|right]; exact Q). rewrite <- (reads_cond _ _ RD'), <- EU, <- EN, <- FU.
    assert (RW : rows E1 = rows E2) by (destruct RD' as [Q|Q]; apply Q). rewrite <- RW.
    destruct RD as [[RD GC]|RD].
    + rewrite (proj1 (proj2 RD)), GC, !Nat.eqb_refl. cbn [andb].
      split; intros K k i Hk Hi; specialize (K k i Hk Hi); rewrite (reads_step_apply E1 E2 i U k RD Hi) in *; exact K.
    + rewrite (proj2 (Nat.eqb_neq _ _) (proj1 (proj2 RD))). cbn [andb].
      split; intros K i Hi; specialize (K i Hi); rewrite (reads_horizon_apply E1 E2 i U RD Hi) in *; exact K.
  - contradiction.
  - subst d2. cbn [imposes means]. unfold ctrl_between. rewrite <- EU, <- EN, <- FU. reflexivity.
Qed.
Lemma wsq_ext n w f g : (forall i, i < n -> f i = g i) -> wsq n w f = wsq n w g.
Proof using. intro H. unfold wsq. f_equal. apply sum_ext. intros i Hi. rewrite (H i Hi). reflexivity. Qed.
Lemma coordinates_cost d1 d2 w U : cost_reads T p1 p2 d1 d2 -> cost_value p1 d1 w x1 U = cost_value p2 d2 w x2 U.
Proof using R1 R2 OC.
  intro H. destruct OC as [EU [EN _]]. pose proof oc_nx as NX. pose proof oc_fu as FU.
  destruct d1 as [M1 r1|M1 r1|N1 r1|M1 N1 r1]; cbn in H.
  - destruct d2 as [M2 r2| | |]; try contradiction. destruct H as [RD <-]. cbn [cost_value]. unfold traj_cost. rewrite <- (reads_cond _ _ RD), <- NX.
    assert (RW : rows M1 = rows M2) by (destruct RD as [Q|Q]; apply Q). rewrite <- RW.
    destruct (Nat.eqb_spec (cols M1) (xDim p1)) as [Q|Q].
    + destruct RD as [RD|RD]; [|destruct (proj1 (proj2 RD) Q)]. apply sum_ext. intros k Hk. apply wsq_ext. intros i Hi. rewrite (reads_step_apply M1 M2 i U k RD Hi). reflexivity.
    + destruct RD as [RD|RD]; [destruct (Q (proj1 (proj2 RD)))|]. apply wsq_ext. intros i Hi. rewrite (reads_horizon_apply M1 M2 i U RD Hi). reflexivity.
  - destruct d2 as [|M2 r2| |]; try contradiction. destruct H as [RD <-]. cbn [cost_value]. unfold target_cost. rewrite <- EN, <- (proj1 RD).
    apply wsq_ext. intros i Hi. rewrite (reads_step_apply M1 M2 i U _ RD Hi). reflexivity.
  - subst d2. cbn [cost_value]. unfold ctrl_cost. rewrite <- EU, <- EN, <- FU. reflexivity.
  - destruct d2 as [| | |M2 N2 r2]; try contradiction. destruct H as [RD [<- <-]]. cbn [cost_value]. unfold mixed_cost.
    assert (RD' : reads T p1 p2 M1 M2) by (destruct RD as [[Q _]|Q]; [left|right]; exact Q). rewrite <- (reads_cond _ _ RD'), <- EU, <- EN, <- FU.
    assert (RW : rows M1 = rows M2) by (destruct RD' as [Q|Q]; apply Q). rewrite <- RW.
    destruct RD as [[RD GC]|RD].
    + rewrite (proj1 (proj2 RD)), GC, !Nat.eqb_refl. cbn [andb]. apply sum_ext. intros k Hk. apply wsq_ext. intros i Hi. rewrite (reads_step_apply M1 M2 i U k RD Hi). reflexivity.
    + rewrite (proj2 (Nat.eqb_neq _ _) (proj1 (proj2 RD))). cbn [andb]. apply wsq_ext. intros i Hi. rewrite (reads_horizon_apply M1 M2 i U RD Hi). reflexivity.
Qed.
End Coordinates.
