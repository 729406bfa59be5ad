(** EndToEndMain.v -- feasible set and objective of the problem of one solve, in terms of what the user gave. *)
From Verif Require Import Base Eigen Spec Preview SpecApi PreviewProofs AutoSpan AutoSpanProofs Constraints ConstraintProofs
  SpecConstraints ConstraintMeaning Checkers Costs SpecCosts CostProofs CostMeaning Controller Registry SpecController Assembly
  Properties_Assembly Results Properties_Results SpecProtocol Protocol Properties_Protocol SpecEndToEnd SpanData Properties_Registry EndToEnd EndToEndQP EndToEndRows.

Lemma solve_has_ps e w b w' : solve e w = Some (b, w') -> exists p, m_ps (ctl w) = Some p.
Proof. intro H. apply solve_objs in H as [p [_ [_ [_ [Ep _]]]]]. eauto. Qed.

Lemma free_inv : forall h w, reached h w -> m_is (ctl w) = None -> stale world0 false h = false -> free_bounds (ctl w).
Proof.
  induction h as [|o h IH] using rev_ind; intros w R NI St.
  - unfold reached in R. cbn in R. injection R as <-. apply (default_free None (vconst 0 0%Qc)).
  - destruct (reached_snoc _ _ _ R) as [v [Rv S]]. rewrite (stale_snoc o h world0 false v Rv) in St.
    pose proof (step_bounds _ _ _ S) as B.
    destruct o; cbn [stale_op] in St; try exact B;
      try (destruct B as [B1 B2]; unfold free_bounds; rewrite B1; apply (IH v Rv (B2 NI) St)).
    destruct B as [b B]. destruct (spB (ctl v)) eqn:Es; [|discriminate]. destruct (solve_keeps_is _ _ _ _ B) as [K1 K2].
    assert (NIv : m_is (ctl v) = None) by congruence. destruct (solve_has_ps _ _ _ _ B) as [p Ep].
    destruct (C28_assembly h v p e b w Rv Ep NIv B) as [_ [_ [_ [_ [_ [_ [_ [_ [_ [_ [Hb _]]]]]]]]]]]. cbv zeta in Hb.
    destruct (Hb Es) as [Q1 Q2]. unfold free_bounds. rewrite Q1, Q2. apply (IH v Rv NIv St).
Qed.

Lemma in_of_type wc t l i : In i (of_type wc t l) <-> In i l /\ has_type t (wc i) = true.
Proof. unfold of_type. apply filter_In. Qed.
Lemma rows_hold_ext ineq r c A b x A' b' : (forall i j, i < r -> j < c -> A i j = A' i j) -> (forall i, i < r -> b i = b' i) ->
  rows_hold ineq r c A b x <-> rows_hold ineq r c A' b' x.
Proof.
  intros HA Hb. unfold rows_hold. split; intros H i Hi; specialize (H i Hi); unfold apply in *.
  - rewrite <- Hb by exact Hi. rewrite (sum_ext c _ (fun j => A i j * x j)%Qc); [exact H|]. intros j Hj. rewrite HA by assumption. reflexivity.
  - rewrite Hb by exact Hi. rewrite (sum_ext c _ (fun j => A' i j * x j)%Qc); [exact H|]. intros j Hj. rewrite HA by assumption. reflexivity.
Qed.
Lemma lsum_sum k l (f : nat -> nat -> Qc) : lsum l (fun i => sum k (f i)) = sum k (fun j => lsum l (fun i => f i j)).
Proof. induction l as [|x t IH]; cbn [lsum]; [symmetry; apply sum_0|]. rewrite IH, <- sum_add. reflexivity. Qed.
Lemma lsum_scal l a f : lsum l (fun i => a * f i)%Qc = (a * lsum l f)%Qc.
Proof. induction l as [|x t IH]; cbn [lsum]; [ring|]. rewrite IH. ring. Qed.
Lemma lsum_add l f g : lsum l (fun i => f i + g i)%Qc = (lsum l f + lsum l g)%Qc.
Proof. induction l as [|x t IH]; cbn [lsum]; [ring|]. rewrite IH. ring. Qed.
Lemma lsum_sub l f g : lsum l (fun i => f i - g i)%Qc = (lsum l f - lsum l g)%Qc.
Proof. induction l as [|x t IH]; cbn [lsum]; [ring|]. rewrite IH. ring. Qed.

(** the objective of a sum of costs with the diagonal term *)
Lemma objective_sum k (l : list nat) (e : Qc) (Q : nat -> nat -> Qc) (c : nat -> Qc) (q : nat -> nat -> nat -> Qc) (cc : nat -> nat -> Qc) U :
  (forall i j, i < k -> j < k -> Q i j = ((if Nat.eqb i j then e else 0) + lsum l (fun s => q s i j))%Qc) ->
  (forall i, i < k -> c i = lsum l (fun s => cc s i)) ->
  objective k Q c U = (half * (e * sum k (fun i => U i * U i)) + lsum l (fun s => objective k (q s) (cc s) U))%Qc.
Proof.
  intros HQ Hc. unfold objective. rewrite lsum_add, lsum_scal.
  assert (E1 : sum k (fun i => c i * U i)%Qc = lsum l (fun s => sum k (fun i => cc s i * U i)%Qc)).
  { rewrite lsum_sum. apply sum_ext. intros i Hi. rewrite Hc by exact Hi. clear. induction l as [|x t IH]; cbn [lsum]; [ring|]. rewrite <- IH. ring. }
  assert (E2 : sum k (fun i => U i * apply k Q U i)%Qc =
    (e * sum k (fun i => U i * U i) + lsum l (fun s => sum k (fun i => U i * apply k (q s) U i)))%Qc).
  { rewrite lsum_sum, <- sum_scal_l, <- sum_add. apply sum_ext. intros i Hi.
    rewrite lsum_scal. unfold apply. rewrite lsum_sum.
    rewrite (sum_ext k (fun j => Q i j * U j)%Qc (fun j => (if Nat.eqb j i then e * U j else 0) + lsum l (fun s => q s i j * U j))%Qc).
    - rewrite sum_add, (sum_delta k i (fun j => e * U j)%Qc Hi). ring.
    - intros j Hj. rewrite HQ by assumption. rewrite (Nat.eqb_sym i j).
      assert (L : (lsum l (fun s => q s i j * U j) = lsum l (fun s => q s i j) * U j)%Qc).
      { clear. induction l as [|x t IH]; cbn [lsum]; [ring|]. rewrite IH. ring. }
      rewrite L. destruct (Nat.eqb j i); ring. }
  rewrite E1, E2. ring.
Qed.

Lemma wsq_ext r w w' v v' : (forall i, i < r -> w i = w' i) -> (forall i, i < r -> v i = v' i) -> wsq r w v = wsq r w' v'.
Proof. intros H1 H2. unfold wsq. f_equal. apply sum_ext. intros i Hi. rewrite H1, H2 by exact Hi. reflexivity. Qed.
Definition data_rows_ok (d : cost_data) : Prop :=
  match d with DTrajC M p | DTargetC M p | DCtrlC M p => rows M = vsize p | DMixedC M N p => rows M = vsize p end.
Lemma cost_value_ext ps d w w' x U : data_rows_ok d -> vsize w = cost_rows d -> veq w w' -> cost_value ps d w x U = cost_value ps d w' x U.
Proof.
  intros Hd Hs [_ E]. destruct d as [M p|M p|M p|M Nm p]; cbn [cost_value data_rows_ok cost_rows] in *; unfold traj_cost, target_cost, ctrl_cost, mixed_cost;
    repeat match goal with |- context [if ?b then _ else _] => destruct b end;
    try (apply sum_ext; intros k Hk); apply wsq_ext; intros i Hi; try reflexivity; apply E; unfold cost_rows in Hs; cbn in Hs; lia.
Qed.
Lemma given_value ps c x U : doc_cost ps c x U = cost_value ps (k_given c) (kw c) x U.
Proof. unfold doc_cost, k_given. destruct (kk c); reflexivity. Qed.

(** ** The meaning of data only depends on their entries *)
Lemma apply_alike r M M' y i : meq M M' -> r = cols M -> i < rows M -> apply r (at_ M) y i = apply r (at_ M') y i.
Proof. intros [R [C E]] -> Hi. unfold apply. apply sum_ext. intros j Hj. rewrite (E i j) by assumption. reflexivity. Qed.
Lemma valid_alike ps d e : con_alike d e -> valid_shape ps (new_con d) -> valid_shape ps (new_con e).
Proof.
  destruct d, e; cbn [con_alike new_con]; try tauto; unfold valid_shape; cbn; intro H;
    repeat match type of H with _ /\ _ => let A := fresh "A" in destruct H as [A H] end;
    repeat match goal with
      | A : meq ?a ?b |- _ => rewrite <- (proj1 A), <- (proj1 (proj2 A)); clear A
      | A : veq ?a ?b |- _ => rewrite <- (proj1 A); clear A end; auto.
Qed.
Ltac all_rows := let H := fresh in let k := fresh in let i := fresh in let Hk := fresh in let Hi := fresh in
  first [ intros H k i Hk Hi; specialize (H k i Hk) | intros H i Hi; specialize (H i)].
Lemma means_alike1 ps d e x U : con_alike d e -> valid_shape ps (new_con d) -> means ps d x U -> means ps e x U.
Proof.
  destruct d as [E f q|G f q|E G f q|lo up|lo up], e as [E' f' q'|G' f' q'|E' G' f' q'|lo' up'|lo' up']; cbn [con_alike new_con]; try tauto;
    unfold valid_shape; cbn; intros A V.
  - destruct A as [A1 [A2 <-]]. unfold traj_means. pose proof A1 as [R [C _]]. rewrite <- R, <- C. destruct V as [V1 V2].
    destruct (Nat.eqb_spec (cols E) (xDim ps)) as [Q|Q].
    + intros H k i Hk Hi. rewrite <- (apply_alike _ E E') by (assumption || lia). rewrite <- (proj2 A2 i) by lia. apply H; assumption.
    + intros H i Hi. rewrite <- (apply_alike _ E E') by (assumption || lia). rewrite <- (proj2 A2 i) by lia. apply H; assumption.
  - destruct A as [A1 [A2 <-]]. unfold ctrl_means. pose proof A1 as [R [C _]]. rewrite <- R, <- C. destruct V as [V1 V2].
    destruct (Nat.eqb_spec (cols G) (uDim ps)) as [Q|Q].
    + intros H k i Hk Hi. rewrite <- (apply_alike _ G G') by (assumption || lia). rewrite <- (proj2 A2 i) by lia. apply H; assumption.
    + intros H i Hi. rewrite <- (apply_alike _ G G') by (assumption || lia). rewrite <- (proj2 A2 i) by lia. apply H; assumption.
  - destruct A as [A1 [A2 [A3 <-]]]. unfold mixed_means. pose proof A1 as [R [C _]]. pose proof A2 as [R' [C' _]]. rewrite <- R, <- C, <- C'.
    destruct V as [V1 [V2 V3]].
    destruct (Nat.eqb_spec (cols E) (xDim ps)) as [Q|Q], (Nat.eqb_spec (cols G) (uDim ps)) as [Q'|Q']; cbn [andb].
    + intros H k i Hk Hi. rewrite <- (apply_alike _ E E'), <- (apply_alike _ G G') by (assumption || lia). rewrite <- (proj2 A3 i) by lia. apply H; assumption.
    + intros H i Hi. rewrite <- (apply_alike _ E E'), <- (apply_alike _ G G') by (assumption || lia). rewrite <- (proj2 A3 i) by lia. apply H; assumption.
    + intros H i Hi. rewrite <- (apply_alike _ E E'), <- (apply_alike _ G G') by (assumption || lia). rewrite <- (proj2 A3 i) by lia. apply H; assumption.
    + intros H i Hi. rewrite <- (apply_alike _ E E'), <- (apply_alike _ G G') by (assumption || lia). rewrite <- (proj2 A3 i) by lia. apply H; assumption.
  - destruct A as [A1 A2]. unfold traj_between, within_bounds. rewrite <- (proj1 A1). destruct V as [V1 V2].
    destruct (Nat.eqb_spec (vsize lo) (xDim ps)) as [Q|Q].
    + intros H k Hk i Hi. rewrite <- (proj2 A1 i), <- (proj2 A2 i) by lia. apply H; assumption.
    + intros H i Hi. rewrite <- (proj2 A1 i), <- (proj2 A2 i) by lia. apply H; assumption.
  - destruct A as [A1 A2]. unfold ctrl_between, within_bounds. rewrite <- (proj1 A1). destruct V as [V1 V2].
    destruct (Nat.eqb_spec (vsize lo) (uDim ps)) as [Q|Q].
    + intros H k Hk i Hi. rewrite <- (proj2 A1 i), <- (proj2 A2 i) by lia. apply H; assumption.
    + intros H i Hi. rewrite <- (proj2 A1 i), <- (proj2 A2 i) by lia. apply H; assumption.
Qed.
Lemma imposes_alike1 ps d e x U : con_alike d e -> valid_shape ps (new_con d) -> imposes ps d x U -> imposes ps e x U.
Proof.
  destruct d as [E f q|G f q|E G f q|lo up|lo up];
    try (intros A V; destruct e; cbn [con_alike imposes] in *; try tauto; apply means_alike1; assumption).
  destruct e as [E' f' q'|G' f' q'|E' G' f' q'|lo' up'|lo' up']; cbn [con_alike new_con]; try tauto; unfold valid_shape; cbn; intros [A1 A2] [V1 V2].
  unfold traj_below_both, below_both. rewrite <- (proj1 A1).
  destruct (Nat.eqb_spec (vsize lo) (xDim ps)) as [Q|Q].
  + intros H k Hk i Hi. rewrite <- (proj2 A1 i), <- (proj2 A2 i) by lia. apply H; assumption.
  + intros H i Hi. rewrite <- (proj2 A1 i), <- (proj2 A2 i) by lia. apply H; assumption.
Qed.
Lemma imposes_alike ps d e x U : con_alike d e -> valid_shape ps (new_con d) -> (imposes ps d x U <-> imposes ps e x U).
Proof.
  intros A V. split; [apply imposes_alike1; assumption|].
  apply imposes_alike1; [apply con_alike_sym; exact A|eapply valid_alike; eassumption].
Qed.
Lemma means_alike ps d e x U : con_alike d e -> valid_shape ps (new_con d) -> (means ps d x U <-> means ps e x U).
Proof.
  intros A V. split; [apply means_alike1; assumption|].
  apply means_alike1; [apply con_alike_sym; exact A|eapply valid_alike; eassumption].
Qed.
Lemma valid_shape_dims p q c : same_dims p q -> valid_shape p c -> valid_shape q c.
Proof. intros [E1 [E2 [E3 [E4 [E5 E6]]]]]. unfold valid_shape. rewrite E1, E2, E5, E6. auto. Qed.

(** the sizes of a registered cost *)
Definition cost_fits (ps : psys) (d : cost_data) : Prop :=
  match d with
  | DTrajC M p => rows M = vsize p /\ (cols M = xDim ps \/ cols M = fullXDim ps)
  | DTargetC M p => rows M = vsize p /\ cols M = xDim ps
  | DCtrlC M p => rows M = vsize p /\ (cols M = uDim ps \/ cols M = fullUDim ps)
  | DMixedC M Nm p => rows M = vsize p /\ rows Nm = vsize p /\ ((cols M = xDim ps /\ cols Nm = uDim ps) \/ (cols M = fullXDim ps /\ cols Nm = fullUDim ps))
  end.
Lemma inited_fits ps c : k_inited ps c -> cost_fits ps (k_given c).
Proof.
  intros [[_ [_ [Kd _]]] En]. unfold k_dims, k_entry, k_given in *. destruct (kk c); cbn; try tauto.
  - destruct Kd as [K1 K2]. destruct (kfull c); tauto.
  - destruct Kd as [K1 K2]. destruct (kfull c); tauto.
  - destruct Kd as [K1 [K2 [K3 K4]]]. destruct (kfull c); tauto.
Qed.
Lemma fits_dims p q d : same_dims p q -> cost_fits p d -> cost_fits q d.
Proof. intros [E1 [E2 [E3 [E4 [E5 E6]]]]]. destruct d; cbn; rewrite ?E1, ?E2, ?E5, ?E6; auto. Qed.
Lemma fits_alike ps d e : cost_alike d e -> cost_fits ps d -> cost_fits ps e.
Proof.
  destruct d, e; cbn; try tauto; intro H; repeat match type of H with _ /\ _ => let A := fresh "A" in destruct H as [A H] end;
    repeat match goal with A : meq ?a ?b |- _ => rewrite (proj1 A), (proj1 (proj2 A)); clear A | A : veq ?a ?b |- _ => rewrite (proj1 A); clear A end; auto.
Qed.
Lemma per_step_alike ps d e : cost_alike d e -> per_step ps d = per_step ps e.
Proof.
  destruct d, e; cbn; try tauto; intro H; repeat match type of H with _ /\ _ => let A := fresh "A" in destruct H as [A H] end;
    repeat match goal with A : meq ?a ?b |- _ => rewrite <- (proj1 (proj2 A)); clear A end; reflexivity.
Qed.
Lemma cost_value_alike ps d e w w' x U : cost_alike d e -> cost_fits ps d -> vsize w = cost_rows d -> veq w w' ->
  cost_value ps d w x U = cost_value ps e w' x U.
Proof.
  intros A V Sw W. destruct d as [E f|E f|E f|E G f], e as [E' f'|E' f'|E' f'|E' G' f']; cbn [cost_alike] in A; try tauto; cbn [cost_fits cost_value] in *; unfold cost_rows in Sw; cbn in Sw.
  - destruct A as [A1 A2]. unfold traj_cost. pose proof A1 as [R [C _]]. rewrite <- R, <- C. destruct V as [V1 V2].
    destruct (Nat.eqb_spec (cols E) (xDim ps)) as [Q|Q]; [apply sum_ext; intros k Hk|]; (apply wsq_ext; intros i Hi; [apply (proj2 W); lia|]);
      rewrite (apply_alike _ E E') by (assumption || lia); rewrite (proj2 A2 i) by lia; reflexivity.
  - destruct A as [A1 A2]. unfold target_cost. pose proof A1 as [R [C _]]. rewrite <- R. destruct V as [V1 V2].
    apply wsq_ext; intros i Hi; [apply (proj2 W); lia|].
      rewrite (apply_alike _ E E') by (assumption || lia); rewrite (proj2 A2 i) by lia; reflexivity.
  - destruct A as [A1 A2]. unfold ctrl_cost. pose proof A1 as [R [C _]]. rewrite <- R, <- C. destruct V as [V1 V2].
    destruct (Nat.eqb_spec (cols E) (uDim ps)) as [Q|Q]; [apply sum_ext; intros k Hk|]; (apply wsq_ext; intros i Hi; [apply (proj2 W); lia|]);
      rewrite (apply_alike _ E E') by (assumption || lia); rewrite (proj2 A2 i) by lia; reflexivity.
  - destruct A as [A1 [A2 A3]]. unfold mixed_cost. pose proof A1 as [R [C _]]. pose proof A2 as [R' [C' _]]. rewrite <- R, <- C, <- C'. destruct V as [V1 [V2 V3]].
    destruct (Nat.eqb_spec (cols E) (xDim ps)) as [Q|Q], (Nat.eqb_spec (cols G) (uDim ps)) as [Q'|Q']; cbn [andb]; [apply sum_ext; intros k Hk| | |]; (apply wsq_ext; intros i Hi; [apply (proj2 W); lia|]);
      rewrite (apply_alike _ E E'), (apply_alike _ G G') by (assumption || lia); rewrite (proj2 A3 i) by lia; reflexivity.
Qed.

(** trajectory bounds without lower bounds mean what is documented *)
Lemma imposes_means ps d x U : ready ps -> no_lower_bound d ->
  (forall lower upper, d = DTrajB lower upper -> vsize lower = xDim ps \/ vsize lower = fullXDim ps) ->
  (imposes ps d x U <-> means ps d x U).
Proof.
  intros R NL Sh. destruct d as [E f i|G f i|E G f i|lo up|lo up]; cbn [imposes]; try tauto. cbn [means no_lower_bound] in *.
  unfold traj_below_both, traj_between, below_both, within_bounds.
  assert (B : forall k (y : nat -> Qc), k <= vsize lo -> (forall i, i < k -> (vget lo i <> NInf -> q_le_ext (y i) (vget lo i)) /\ q_le_ext (y i) (vget up i)) <->
                        (forall i, i < k -> ext_le_q (vget lo i) (y i) /\ q_le_ext (y i) (vget up i))).
  { intros k y Hk. split; intros H i Hi; specialize (H i Hi); rewrite (NL i) in * by lia; cbn; intuition congruence. }
  destruct (Nat.eqb_spec (vsize lo) (xDim ps)) as [Es|Es].
  - split; intros H k Hk; apply (B (xDim ps)); try lia; apply H; exact Hk.
  - destruct (Sh lo up eq_refl) as [Q|Q]; [congruence|]. apply B. lia.
Qed.

Section Solve.
Variables n m N : nat.
Hypothesis SF : sizes_fit n m N.
Let D := dps n m N.
Variables (h : list op) (w : world) (p : nat) (e : senv) (b : bool) (w' : world).
Hypotheses (FP : follows_protocol n m N world0 h) (RE : reached h w) (HO : honest world0 h)
  (Ep : m_ps (ctl w) = Some p) (NI : m_is (ctl w) = None) (So : solve e w = Some (b, w')).

Lemma sv_pinv : pinv D w.
Proof using SF FP RE. exact (proj2 (protocol_ind n m N SF (fun _ _ => True) I (fun _ _ _ _ _ _ _ _ _ _ => I) h w FP RE)). Qed.
Lemma sv_ps : ready (wps w' p) /\ same_dims (wps w' p) D /\ same_dims (wps w' p) (wps w p) /\ x0 (wps w' p) = x0 (wps w p) /\
  psA (wps w' p) = psA (wps w p) /\ psB (wps w' p) = psB (wps w p) /\ psd (wps w' p) = psd (wps w p) /\
  update_cons (wps w' p) (spC (ctl w)) (wcon w) = Some (wcon w') /\ update_costs (wps w' p) (spCost (ctl w)) (wcost w) = Some (wcost w').
Proof using SF FP RE HO Ep So.
  pose proof sv_pinv as P. destruct (pi_m _ _ P p Ep) as [Np _]. destruct (pi_ps _ _ P p Np) as [SD _].
  destruct (solve_objs _ _ _ _ So) as [p' [ps [wc [wk [Ep' [Eu [Ec [Ek [Hw [<- [<- _]]]]]]]]]]]. rewrite Ep in Ep'. injection Ep' as <-.
  destruct (ensure_ready _ _ (reached_sound _ _ RE HO p) Np Eu) as [R [_ [_ [Sd [X0 [EA [EB Ed]]]]]]].
  rewrite Hw. replace (upd (wps w) p ps p) with ps by (unfold upd; rewrite Nat.eqb_refl; reflexivity).
  split; [exact R|]. split; [eapply same_dims_trans; eassumption|]. auto 10.
Qed.
Lemma sv_sizes : qp_sized (fullUDim (wps w' p)) (m_qp (ctl w')) /\ qp_sized (fullUDim (wps w' p)) (m_qp (ctl w)).
Proof using SF FP RE HO Ep NI So.
  pose proof sv_pinv as P. destruct (pi_m _ _ P p Ep) as [Np Qs]. unfold opt in Qs. rewrite NI in Qs.
  destruct sv_ps as [R [SD _]]. assert (FU : fullUDim (wps w' p) = fullUDim D) by apply SD. rewrite FU. split; [|exact Qs].
  destruct (solve_qp _ _ _ _ So) as [w1 [Eb [-> _]]]. destruct (build_sizes _ _ _ Eb) as [B1 [B2 [B3 [B4 B5]]]].
  unfold qp_sized. rewrite B1, B2, B3, B4, B5. exact Qs.
Qed.

Lemma sv_well_sized : well_sized (fullUDim (wps w' p)) (rows (qAeq (m_qp (ctl w')))) (rows (qAineq (m_qp (ctl w')))) (m_qp (ctl w')).
Proof using SF FP RE HO Ep NI So.
  destruct sv_sizes as [[Q1 [Q2 [Q3 [Q4 Q5]]]] _].
  destruct (C28_assembly h w p e b w' RE Ep NI So) as [_ [_ [_ [_ [_ [_ [_ [_ [SE [SI _]]]]]]]]]]. cbv zeta in SE, SI.
  destruct SE as [SE1 [SE2 [SE3 _]]]. destruct SI as [SI1 [SI2 [SI3 _]]].
  unfold well_sized. repeat split; try assumption; try reflexivity; [rewrite SE3, SE1|rewrite SI3, SI1]; reflexivity.
Qed.
Lemma sv_called : well_sized (vsize (qc (m_qp (ctl w')))) (nrEq (ctl w')) (nrIneq (ctl w')) (m_qp (ctl w')).
Proof using SF FP RE HO Ep NI So.
  pose proof sv_well_sized as W. destruct (C28_assembly h w p e b w' RE Ep NI So) as [_ [N1 [N2 _]]]. cbv zeta in N1, N2. rewrite N1, N2.
  destruct W as [W1 [W2 [W3 W]]]. rewrite W3. unfold well_sized. tauto.
Qed.
Lemma sv_con i : callable world0 h -> In i (spC (ctl w)) -> even_bounds h i ->
  exists d, con_data_of h i = Some d /\ con_alike (c_given (wcon w i)) d /\ lines_fresh (wcon w i) /\ c_inited D (wcon w i) /\
    rows_as (wps w' p) (wcon w i) (wcon w' i) /\ nrConstr (wcon w' i) = nrConstr (wcon w i).
Proof using SF FP RE HO Ep So.
  intros CA Hi NS. pose proof sv_pinv as P. destruct sv_ps as [R [SD [_ [_ [_ [_ [_ [Ec _]]]]]]]].
  destruct (con_inv_holds n m N SF h w FP RE) as [CL CI]. specialize (CI CA).
  pose proof (ri_con _ (pi_reg _ _ P) i Hi) as Lt. rewrite <- CL in Lt. apply nth_error_Some in Lt.
  assert (exists d, con_data_of h i = Some d) as [d Ed] by (unfold con_data_of; destruct (nth_error (new_cons h) i); [eauto|congruence]).
  exists d. destruct (CI i d Ed) as [G1 G2]. split; [exact Ed|]. split; [exact G1|]. split; [exact (G2 NS)|]. split; [apply (pi_rcon _ _ P); exact Hi|].
  split; [|apply (update_cons_nr _ _ _ _ Ec)].
  eapply update_cons_rows; [exact SF|exact R|exact SD|exact Ec| |exact Hi]. intros k Hk. apply (pi_rcon _ _ P k Hk).
Qed.
Lemma sv_valid i d : callable world0 h -> In i (spC (ctl w)) -> even_bounds h i -> con_data_of h i = Some d ->
  valid_shape (wps w' p) (new_con (c_given (wcon w i))) /\ valid_shape (wps w' p) (new_con d).
Proof using SF FP RE HO Ep So.
  intros CA Hi NS Ed. destruct (sv_con i CA Hi NS) as [d' [Ed' [G1 [G2 [G3 _]]]]]. rewrite Ed in Ed'. injection Ed' as <-.
  destruct sv_ps as [_ [SD _]]. destruct (inited_valid D _ G3 G2) as [V _]. apply (valid_shape_dims D (wps w' p)) in V; [|apply same_dims_sym; exact SD].
  split; [exact V|]. eapply valid_alike; eassumption.
Qed.
(** the imposed rows of one constraint *)
Lemma sv_rows i d U : callable world0 h -> In i (spC (ctl w)) -> even_bounds h i -> con_data_of h i = Some d -> ck (wcon w i) <> KCtrlB ->
  (rows_hold (isIneq (wcon w i)) (nrConstr (wcon w' i)) (fullUDim (wps w' p)) (at_ (cA (wcon w' i))) (vget (cb (wcon w' i))) U <->
   imposes (wps w' p) d (vget (x0 (wps w' p))) U).
Proof using SF FP RE HO Ep So.
  intros CA Hi NS Ed NB. destruct (sv_valid i d CA Hi NS Ed) as [V _]. destruct (sv_con i CA Hi NS) as [d' [Ed' [G1 [G2 [G3 [G4 G5]]]]]]. rewrite Ed in Ed'. injection Ed' as <-.
  destruct sv_ps as [R [SD _]]. rewrite G5, (rows_mean _ _ _ U NB G4), <- (imposes_alike _ _ d _ _ G1 V). apply (inited_row_means D); assumption.
Qed.

Let imposed (U : nat -> Qc) : Prop := all_imposed (wps w' p) h (spC (ctl w)) U.

Lemma sv_feasible U : callable world0 h -> (spB (ctl w) <> [] \/ stale world0 false h = false) ->
  (forall i, In i (spC (ctl w)) -> even_bounds h i) ->
  (feasible (m_qp (ctl w')) U <-> imposed U /\ (spB (ctl w) = [] -> representable (fullUDim (wps w' p)) U)).
Proof using SF FP RE HO Ep NI So.
  intros CA St NS. pose proof sv_pinv as P. destruct sv_ps as [R [SD _]].
  destruct (C28_assembly h w p e b w' RE Ep NI So) as [_ [_ [_ [_ [_ [_ [_ [_ [SE [SI [B0 B1]]]]]]]]]]]. cbv zeta in SE, SI, B0, B1.
  destruct sv_sizes as [[_ [_ [_ [Z1 Z2]]]] [_ [_ [_ [Y1 Y2]]]]].
  pose proof (pi_reg _ _ P) as RI.
  unfold feasible. rewrite (stacked_holds false _ _ _ _ _ _ _ U SE), (stacked_holds true _ _ _ _ _ _ _ U SI). rewrite (ri_eq _ RI), (ri_ineq _ RI).
  assert (TY : forall i, In i (spC (ctl w)) -> exists d, con_data_of h i = Some d).
  { intros i Hi. destruct (sv_con i CA Hi (NS i Hi)) as [d [Ed _]]. eauto. }
  assert (IQ : forall i, In i (spC (ctl w)) -> ck (wcon w i) = KTrajB -> isIneq (wcon w i) = true).
  { intros i Hi Q. destruct (sv_con i CA Hi (NS i Hi)) as [d [_ [_ [LF _]]]]. apply (LF Q). }
  assert (ROWS : (forall i, In i (of_type (wcon w) EqualityConstraint (spC (ctl w))) ->
                    rows_hold false (nrConstr (wcon w' i)) (fullUDim (wps w' p)) (at_ (cA (wcon w' i))) (vget (cb (wcon w' i))) U) /\
                 (forall i, In i (of_type (wcon w) InequalityConstraint (spC (ctl w))) ->
                    rows_hold true (nrConstr (wcon w' i)) (fullUDim (wps w' p)) (at_ (cA (wcon w' i))) (vget (cb (wcon w' i))) U) <->
                 (forall i d, In i (spC (ctl w)) -> ck (wcon w i) <> KCtrlB -> con_data_of h i = Some d ->
                    imposes (wps w' p) d (vget (x0 (wps w' p))) U)).
  { split.
    - intros [H1 H2] i d Hi NB Ed. apply (sv_rows i d U CA Hi (NS i Hi) Ed NB).
      destruct (isIneq (wcon w i)) eqn:Qi.
      + apply H2. apply in_of_type. split; [exact Hi|]. unfold has_type, constraintType. rewrite Qi. destruct (ck (wcon w i)); reflexivity || congruence.
      + apply H1. apply in_of_type. split; [exact Hi|]. unfold has_type, constraintType. rewrite Qi.
        destruct (ck (wcon w i)) eqn:Q; try reflexivity; [rewrite IQ in Qi by assumption; discriminate|congruence].
    - intro H. split; intros i Hi; apply in_of_type in Hi as [Hi T]; destruct (TY i Hi) as [d Ed];
        unfold has_type, constraintType in T.
      + assert (NB : ck (wcon w i) <> KCtrlB) by (intro Q; rewrite Q in T; discriminate).
        assert (Qi : isIneq (wcon w i) = false) by (destruct (ck (wcon w i)), (isIneq (wcon w i)); congruence).
        pose proof (proj2 (sv_rows i d U CA Hi (NS i Hi) Ed NB) (H i d Hi NB Ed)) as G. rewrite Qi in G. exact G.
      + assert (NB : ck (wcon w i) <> KCtrlB) by (intro Q; rewrite Q in T; discriminate).
        assert (Qi : isIneq (wcon w i) = true) by (destruct (ck (wcon w i)) eqn:Q; try (apply IQ; assumption); destruct (isIneq (wcon w i)); congruence).
        pose proof (proj2 (sv_rows i d U CA Hi (NS i Hi) Ed NB) (H i d Hi NB Ed)) as G. rewrite Qi in G. exact G. }
  rewrite <- and_assoc, ROWS.
  assert (BND : within_bounds (vsize (qlb (m_qp (ctl w')))) (vget (qlb (m_qp (ctl w')))) (vget (qub (m_qp (ctl w')))) U <->
    (forall i d, In i (spC (ctl w)) -> ck (wcon w i) = KCtrlB -> con_data_of h i = Some d ->
                    imposes (wps w' p) d (vget (x0 (wps w' p))) U) /\ (spB (ctl w) = [] -> representable (fullUDim (wps w' p)) U)).
  { assert (INB : forall i, In i (spB (ctl w)) <-> In i (spC (ctl w)) /\ ck (wcon w i) = KCtrlB).
    { intro i. rewrite (ri_b _ RI), in_of_type. unfold has_type, constraintType.
      destruct (ck (wcon w i)); destruct (isIneq (wcon w i)); intuition congruence. }
    pose proof (pi_b _ _ P) as LB. destruct (spB (ctl w)) as [|i0 [|i1 t]] eqn:Es; [| |cbn in LB; lia].
    - destruct St as [St|St]; [congruence|]. destruct (B0 eq_refl) as [-> ->]. destruct (free_inv h w RE NI St) as [F1 F2]. rewrite Y1.
      unfold representable, within_bounds. split.
      + intro H. split; [intros i d Hi Q; exfalso; apply (proj2 (INB i)); auto|]. intros _ i Hi. specialize (H i Hi). rewrite F1, F2 in H by lia. exact H.
      + intros [_ H] i Hi. rewrite F1, F2 by lia. apply H; [reflexivity|exact Hi].
    - destruct (proj1 (INB i0) (or_introl eq_refl)) as [Hi Q]. destruct (sv_con i0 CA Hi (NS i0 Hi)) as [d0 [Ed0 [G1 [G2 [G3 [G4 G5]]]]]].
      assert (NF : nrConstr (wcon w' i0) = fullUDim (wps w' p)).
      { rewrite G5. destruct G3 as [Sh _]. unfold c_shape in Sh. rewrite Q in Sh. destruct Sh as [_ [-> _]]. symmetry. apply SD. }
      destruct (B1 i0 eq_refl) as [[V1 V2] [V3 V4]]; [congruence|congruence|].
      assert (WB : within_bounds (vsize (qlb (m_qp (ctl w')))) (vget (qlb (m_qp (ctl w')))) (vget (qub (m_qp (ctl w')))) U <->
                   within_bounds (fullUDim (wps w' p)) (vget (clb (wcon w' i0))) (vget (cub (wcon w' i0))) U).
      { unfold within_bounds. rewrite Z1. split; intros H i Hlt; specialize (H i Hlt); rewrite V2, V4 in * by lia; exact H. }
      rewrite WB, (inited_bounds_mean D _ _ _ (vget (x0 (wps w' p))) U R SD G3 G2 Q G4), (imposes_alike _ _ d0 _ _ G1 (proj1 (sv_valid i0 d0 CA Hi (NS i0 Hi) Ed0))). split.
      + intro H. split; [|discriminate]. intros i d Hi' Q' Ed. assert (In i [i0]) as [<-|[]] by (apply INB; auto). congruence.
      + intros [H _]. eapply H; eassumption. }
  rewrite BND. unfold imposed. split.
  - intros [H1 [H2 H3]]. split; [|exact H3]. intros i d Hi Ed. destruct (ck (wcon w i)) eqn:Q; try (apply (H1 i d Hi); [congruence|exact Ed]). eapply H2; eassumption.
  - intros [H1 H3]. split; [|split]; [intros; eapply H1; eassumption|intros; eapply H1; eassumption|exact H3].
Qed.

Let total (U : nat -> Qc) : Qc := total_cost (wps w' p) h (spCost (ctl w)) U.
Lemma sv_cost_data i : callable world0 h -> In i (spCost (ctl w)) ->
  exists d, cost_data_of h i = Some d /\ cost_alike (k_given (wcost w i)) d /\ veq (kw (wcost w i)) (weights_of h i) /\
    k_inited D (wcost w i) /\ cost_fits (wps w' p) (k_given (wcost w i)) /\ vsize (kw (wcost w i)) = cost_rows (k_given (wcost w i)).
Proof using SF FP RE HO Ep So.
  intros CA Hi. pose proof sv_pinv as P. destruct sv_ps as [R [SD _]].
  destruct (cost_inv_holds n m N SF h w FP RE) as [CL CI]. specialize (CI CA).
  pose proof (ri_cost _ (pi_reg _ _ P) i Hi) as Lt. rewrite <- CL in Lt. apply nth_error_Some in Lt.
  assert (exists d, cost_data_of h i = Some d) as [d Ed] by (unfold cost_data_of; destruct (nth_error (new_costs h) i); [eauto|congruence]).
  exists d. destruct (CI i d Ed) as [G1 G2]. split; [exact Ed|]. split; [exact G1|]. split; [exact G2|].
  pose proof (pi_rcost _ _ P i Hi) as KI. split; [exact KI|]. split; [|apply (inited_even D); exact KI].
  apply (fits_dims D); [apply same_dims_sym; exact SD|]. apply inited_fits. exact KI.
Qed.
Lemma sv_cost i U : callable world0 h -> fresh_steps (wps w' p) h (spCost (ctl w)) -> In i (spCost (ctl w)) ->
  exists d, cost_data_of h i = Some d /\
    objective (fullUDim (wps w' p)) (at_ (kQ (wcost w' i))) (vget (kc (wcost w' i))) U
    = (cost_value (wps w' p) d (weights_of h i) (vget (x0 (wps w' p))) U
       - cost_value (wps w' p) d (weights_of h i) (vget (x0 (wps w' p))) (fun _ => 0))%Qc.
Proof using SF FP RE HO Ep So.
  intros CA FS Hi. pose proof sv_pinv as P. destruct sv_ps as [R [SD [_ [_ [_ [_ [_ [_ Ek]]]]]]]].
  destruct (sv_cost_data i CA Hi) as [d [Ed [G1 [G2 [_ [Fi Wr]]]]]]. exists d. split; [exact Ed|].
  pose proof (pi_rcost _ _ P i Hi) as KI.
  assert (PS : k_acc (wcost w i) = per_step (wps w' p) d).
  { destruct KI as [_ En]. rewrite <- (per_step_alike _ _ _ G1). unfold k_acc, per_step, k_given, k_entry in *.
    assert (X1 : xDim (wps w' p) = xDim D) by apply SD. assert (X2 : uDim (wps w' p) = uDim D) by apply SD. rewrite X1, X2.
    destruct (kk (wcost w i)); try reflexivity; rewrite En, negb_involutive; reflexivity. }
  assert (EX : k_exact (wps w' p) (wcost w' i)).
  { eapply update_costs_exact; [exact SF|exact R|exact SD|exact Ek|apply (pi_rcost _ _ P)|exact Hi|].
    rewrite PS. intro A. destruct (FS i d Hi Ed A) as [A1 A2]. split; [|exact A2]. eapply zero_inv_holds; eassumption. }
  destruct (pi_m _ _ P p Ep) as [Np _]. destruct (ensure_live D _ (pi_ps _ _ P p Np)) as [ps' [Eu' [Lp [_ Up]]]].
  assert (EP : ps' = wps w' p).
  { destruct (solve_objs _ _ _ _ So) as [p' [ps [wc [wk [Ep' [Eu [_ [_ [Hw _]]]]]]]]]. rewrite Ep in Ep'. injection Ep' as <-. rewrite Eu in Eu'. injection Eu' as <-.
    rewrite Hw. unfold upd. rewrite Nat.eqb_refl. reflexivity. }
  subst ps'. destruct (update_costs_same n m N _ Lp Up _ _ _ Ek (pi_rcost _ _ P) i) as [S1 [S2 [S3 [S4 [S5 S6]]]]].
  destruct (update_costs_ok D _ Lp Up _ _ (pi_rcost _ _ P)) as [wk' [Ek' [KI' _]]]. rewrite Ek in Ek'. injection Ek' as <-.
  destruct (KI' i KI) as [Sh' En']. assert (SD' : same_dims D (wps w' p)) by (apply same_dims_sym; exact SD).
  pose proof (k_shape_dims _ _ _ SD' Sh') as ShP.
  rewrite (k_value _ R); [|apply ShP|apply (k_entry_dims _ _ _ SD' En')|exact EX].
  rewrite !given_value. rewrite (k_given_eq (wcost w i) (wcost w' i)), S6 by assumption.
  rewrite !(cost_value_alike _ _ d _ (weights_of h i) _ _ G1 Fi Wr G2). reflexivity.
Qed.
Lemma sv_value U : callable world0 h -> fresh_steps (wps w' p) h (spCost (ctl w)) ->
  qp_value (m_qp (ctl w')) U = (total U + regularization (fullUDim (wps w' p)) U - total (fun _ => 0%Qc))%Qc.
Proof using SF FP RE HO Ep NI So.
  intros CA FS. destruct (C28_assembly h w p e b w' RE Ep NI So) as [_ [_ [_ [_ [_ [_ [HQ [Hc _]]]]]]]]. cbv zeta in HQ, Hc.
  destruct sv_sizes as [[_ [_ [Z _]]] _]. unfold qp_value. rewrite Z.
  rewrite (objective_sum _ (spCost (ctl w)) q1em6 _ _ (fun s => at_ (kQ (wcost w' s))) (fun s => vget (kc (wcost w' s))) U);
    [|intros; apply HQ|intros; apply Hc].
  unfold total, total_cost, regularization.
  rewrite (lsum_ext (spCost (ctl w)) (fun s => objective _ _ _ U)
    (fun i => match cost_data_of h i with Some d => cost_value (wps w' p) d (weights_of h i) (vget (x0 (wps w' p))) U | None => 0%Qc end
            - match cost_data_of h i with Some d => cost_value (wps w' p) d (weights_of h i) (vget (x0 (wps w' p))) (fun _ => 0%Qc) | None => 0%Qc end)%Qc).
  - rewrite lsum_sub. ring.
  - intros i Hi. destruct (sv_cost i U CA FS Hi) as [d [Ed Ev]]. rewrite Ed. exact Ev.
Qed.
End Solve.
