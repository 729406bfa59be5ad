(** Owners.v -- the registry invariant of Registry.v in a program with several controllers. *)
From Verif Require Import Base Eigen Preview AutoSpan Constraints Costs Controller Registry SpecController Properties_Registry Controllers SpecSharing Sharing.

(** a call makes objects, it never destroys one or changes its class *)
Definition objects_kept (w w' : world) : Prop :=
  ncon w <= ncon w' /\ ncost w <= ncost w' /\ (forall i, i < ncon w -> same_kind (wcon w i) (wcon w' i)).
Lemma ok_same w w' : ncon w' = ncon w -> ncost w' = ncost w -> (forall i, same_kind (wcon w i) (wcon w' i)) -> objects_kept w w'.
Proof. intros A B C. repeat split; try lia; apply C. Qed.
Lemma ok_refl w : objects_kept w w.
Proof. apply ok_same; try reflexivity. intro. apply same_kind_refl. Qed.
Lemma ok_trans a b c : objects_kept a b -> objects_kept b c -> objects_kept a c.
Proof.
  intros [A1 [A2 A3]] [B1 [B2 B3]]. split; [lia|]. split; [lia|]. intros i Hi.
  destruct (A3 i Hi) as [E1 E2]. destruct (B3 i ltac:(lia)) as [F1 F2]. split; congruence.
Qed.
Lemma kept_objects w w' : lists_kept w w' -> objects_kept w w'.
Proof. intros [_ [_ [_ [_ [_ [A [B [_ [_ C]]]]]]]]]. apply ok_same; assumption. Qed.
Lemma ok_con w i c : same_kind (wcon w i) c -> objects_kept w (set_con w i c).
Proof. intro H. apply ok_same; try reflexivity. intro k. cbn. apply upd_kind. exact H. Qed.
Lemma ok_ctl w m : objects_kept w (set_ctl w m).
Proof. apply ok_same; try reflexivity. intro. apply same_kind_refl. Qed.
Lemma ok_cost w i c : objects_kept w (set_cost w i c).
Proof. apply ok_same; try reflexivity. intro. apply same_kind_refl. Qed.
Lemma initController_objects j v p v' : initializeController j v p = Some v' -> objects_kept v v'.
Proof.
  unfold initializeController, clearConstraintMatrices. destruct (fits_int _); [|discriminate]. cbn [obind]. intro H. injection H as <-. apply ok_ctl.
Qed.
Lemma step_objects w o w' : reg_inv w -> step w o = Ok w' \/ (exists x, step w o = Throw x w') -> objects_kept w w'.
Proof.
  intros RI. assert (RF : objects_kept w w) by apply ok_refl.
  destruct o; cbn [step]; intro H.
  - destruct (ps_step (wps w p) o); cbn in H; destruct H as [H|[x H]]; try discriminate H; injection H; intros; subst; apply ok_same; try reflexivity; intro; apply same_kind_refl.
  - destruct H as [H|[x H]]; [|discriminate H]. injection H as <-. repeat split; cbn; try lia; unfold upd; rewrite (proj2 (Nat.eqb_neq i (ncon w))) by lia; reflexivity.
  - eapply with_con_other; [exact H|exact RF|]. cbv beta. intros [E|[x E]]; [|discriminate E]. injection E as <-. apply ok_same; try reflexivity; intro; apply same_kind_refl.
  - eapply with_con_other; [exact H|exact RF|]. cbv beta. intros [E|[x E]]; [|discriminate E]. injection E as <-. apply ok_same; try reflexivity; intro; apply same_kind_refl.
  - eapply with_con_other; [exact H|exact RF|]. cbv beta. destruct (c_autoSpan j (wcon w i)) as [c|x c|] eqn:E0; intros [E|[y E]]; cbn in E; try discriminate E; injection E; intros; subst;
      apply ok_con; eapply span_kind; eauto.
  - destruct H as [H|[x H]]; [|discriminate H]. injection H as <-. repeat split; cbn; lia.
  - eapply with_cost_other; [exact H|exact RF|]. cbv beta. intros [E|[x E]]; [|discriminate E]. injection E as <-. apply ok_same; try reflexivity; intro; apply same_kind_refl.
  - eapply with_cost_other; [exact H|exact RF|]. cbv beta. intros [E|[x E]]; [|discriminate E]. injection E as <-. apply ok_same; try reflexivity; intro; apply same_kind_refl.
  - eapply with_cost_other; [exact H|exact RF|]. intros [E|[x E]]; destruct (k_autoSpan j (wcost w i)); cbn in E; try discriminate E; injection E; intros; subst; apply ok_cost.
  - eapply with_cost_other; [exact H|exact RF|]. intros [E|[x E]]; destruct (k_weights (wcost w i) v); cbn in E; try discriminate E; injection E; intros; subst; apply ok_cost.
  - eapply with_cost_other; [exact H|exact RF|]. intros [E|[y E]]; try discriminate E; injection E; intros; subst; apply ok_cost.
  - destruct (construct j k r w) as [v|] eqn:E; cbn in H; destruct H as [H|[x H]]; try discriminate H. injection H as <-.
    unfold construct in E. destruct k as [|p| |p]; cbv zeta in E; try (injection E as <-; apply ok_ctl); apply initController_objects in E;
      (eapply ok_trans; [apply ok_ctl|exact E]).
  - destruct (initializeController j w p) as [v|] eqn:E; cbn in H; destruct H as [H|[x H]]; try discriminate H. injection H as <-. exact (initController_objects _ _ _ _ E).
  - eapply with_cost_other; [exact H|exact RF|]. unfold addCost. destruct (m_ps (ctl w)) as [p|]; [|intros [E|[x E]]; discriminate E].
    destruct (initializeCost j (wps w p) (wcost w i)); intros [E|[x E]]; cbn in E; try discriminate E; injection E; intros; subst; apply ok_same; try reflexivity; intro; apply same_kind_refl.
  - eapply with_con_other; [exact H|exact RF|]. unfold addConstraint. destruct (m_ps (ctl w)) as [p|]; [|intros [E|[x E]]; discriminate E].
    destruct (initializeConstraint j (wps w p) (wcon w i)) as [c|x c|] eqn:EI; intros [E|[y E]]; cbn in E; try discriminate E.
    + apply init_kind in EI. destruct (addConstraintByType (set_con w i c) i) as [v|] eqn:A; cbn in E; [|discriminate E]. injection E as <-. revert A. unfold addConstraintByType.
      destruct (constraintType _); repeat match goal with |- context [fits_int ?a] => destruct (fits_int a) end; cbn [obind]; intro A; try discriminate A; injection A as <-;
        (eapply ok_trans; [apply ok_con; exact EI|apply ok_ctl]).
    + destruct (addConstraintByType (set_con w i c) i); discriminate E.
    + apply init_throw in EI. injection E; intros; subst. apply ok_con. apply same_kind_refl.
  - eapply with_cost_other; [exact H|exact RF|]. intros [E|[x E]]; try discriminate E. injection E as <-. unfold removeCost. destruct (erase_first _ _); [apply ok_ctl|exact RF].
  - eapply with_con_other; [exact H|exact RF|]. cbv beta. destruct (removeConstraint w i) as [v|] eqn:E0; intros [E|[x E]]; cbn in E; try discriminate E. injection E as <-.
    revert E0. unfold removeConstraint. destruct (erase_first i (spC (ctl w))); [|intro E0; injection E0 as <-; exact RF].
    destruct (constraintType _); repeat match goal with |- context [erase_first i ?l] => destruct (erase_first i l) end; cbn [obind]; intro E0; try discriminate E0; injection E0 as <-; apply ok_ctl.
  - destruct H as [H|[x H]]; try discriminate H. injection H as <-. apply ok_ctl.
  - destruct (clearConstraints w) as [v|] eqn:E; cbn in H; destruct H as [H|[x H]]; try discriminate H. injection H as <-. revert E. unfold clearConstraints.
    destruct (m_ps (ctl w)) as [p|]; cbn; [|discriminate]. unfold clearConstraintMatrices. destruct (fits_int _); cbn; [|discriminate]. intro E. injection E as <-. apply ok_ctl.
  - destruct H as [H|[x H]]; try discriminate H. injection H as <-. apply ok_same; try reflexivity; intro; apply same_kind_refl.
  - destruct (solve e w) as [[b v]|] eqn:E; destruct H as [H|[x H]]; try discriminate H. injection H as <-.
    destruct (solve_parts _ _ _ _ E) as [w1 [r [Eb [_ [w4 [E4 ->]]]]]]. destruct (build_kept _ _ _ Eb) as [K _].
    eapply ok_trans; [apply kept_objects; exact K|]. eapply ok_trans; [|apply ok_ctl]. cbv zeta in E4. set (w2 := set_ctl w1 _) in *.
    assert (D : objects_kept w1 (checkDelete w2)) by (eapply ok_trans; [apply ok_ctl|unfold checkDelete; apply ok_ctl]).
    destruct b; [|injection E4 as <-; exact D]. eapply ok_trans; [exact D|]. apply kept_objects. exact (proj1 (updateResults_kept _ _ E4)).
  - destruct H as [H|[x H]]; try discriminate H. injection H as <-. unfold resetX0Cost. apply ok_ctl.
  - destruct H as [H|[x H]]; try discriminate H. injection H as <-. unfold resetX0Bounds. apply ok_ctl.
Qed.

(** ** The invariant of the program *)
Definition listed (W : mworld) (m : lmpc) : Prop :=
  spEq m = of_type (mcon W) EqualityConstraint (spC m) /\ spIneq m = of_type (mcon W) InequalityConstraint (spC m) /\
  spB m = of_type (mcon W) BoundConstraint (spC m) /\
  (forall i, In i (spC m) -> i < mncon W) /\ (forall i, In i (spCost m) -> i < mncost W).
Record minv (W : mworld) : Prop := {
  mi_lists : forall a, listed W (mctl W a);
  mi_hcon : forall i, mncon W <= i -> mhcon W i = 0;
  mi_hcost : forall i, mncost W <= i -> mhcost W i = 0
}.
Lemma others_zero K c f : (forall a, a < K -> a <> c -> f a = 0) -> others K c f = 0.
Proof.
  induction K as [|k IH]; intro H; cbn; [reflexivity|]. rewrite IH by (intros; apply H; lia). destruct (Nat.eqb_spec k c) as [E|E]; [reflexivity|]. rewrite H by lia. reflexivity.
Qed.
Lemma others_pos K c f a : a < K -> a <> c -> 0 < f a -> 0 < others K c f.
Proof.
  induction K as [|k IH]; intros La Ne P; [lia|]. cbn. destruct (Nat.eq_dec a k) as [->|D]; [rewrite (proj2 (Nat.eqb_neq k c) Ne); lia|]. assert (0 < others k c f) by (apply IH; [lia|exact Ne|exact P]). lia.
Qed.
Lemma held_con_zero W m i : listed W m -> ~ In i (spC m) -> held_con m i = 0.
Proof.
  intros [A [B [C _]]] N. unfold held_con. rewrite A, B, C, !cnt_notin; [reflexivity| | | |exact N]; intro H; apply of_type_in in H as [H _]; contradiction.
Qed.
Lemma held_con_pos m i : In i (spC m) -> 0 < held_con m i.
Proof. intro H. apply cnt_in in H. unfold held_con. lia. Qed.
Lemma view_inv K c W : minv W -> reg_inv (view K c W).
Proof.
  intros [L H1 H2]. destruct (L c) as [A [B [C [D E]]]]. split; cbn; auto.
  - intros i Hi. rewrite (H1 i Hi), others_zero; [reflexivity|]. intros a _ _. apply (held_con_zero W); [apply L|].
    intro X. destruct (L a) as [_ [_ [_ [Y _]]]]. specialize (Y i X). lia.
  - intros i Hi. rewrite (H2 i Hi), others_zero; [reflexivity|]. intros a _ _. apply cnt_notin.
    intro X. destruct (L a) as [_ [_ [_ [_ Y]]]]. specialize (Y i X). lia.
Qed.
Lemma base_inv W : minv W -> reg_inv (base W).
Proof. intros [L H1 H2]. split; cbn; auto; contradiction. Qed.
Lemma listed_ext W W' m : listed W m -> mncon W <= mncon W' -> mncost W <= mncost W' ->
  (forall i, i < mncon W -> same_kind (mcon W i) (mcon W' i)) -> listed W' m.
Proof.
  intros [A [B [C [D E]]]] N1 N2 K. unfold listed.
  assert (X : forall t, of_type (mcon W') t (spC m) = of_type (mcon W) t (spC m)) by (intro t; apply of_type_ext; intros i Hi; apply K; auto).
  rewrite !X. repeat split; auto; intros i Hi; [specialize (D i Hi)|specialize (E i Hi)]; lia.
Qed.
Lemma minv0 : minv mworld0.
Proof. split; try reflexivity. intro a. repeat split; cbn; contradiction. Qed.
Lemma minv_step K W a : minv W -> match mstep K W a with Ok W' | Throw _ W' => minv W' | UB => True end.
Proof.
  intro M. destruct a as [o|c o]; cbn [mstep].
  - destruct (is_shared o); [|exact M]. pose proof (base_inv W M) as R. pose proof (step_inv _ o R) as R'.
    assert (G : forall v, step (base W) o = Ok v \/ (exists x, step (base W) o = Throw x v) -> reg_inv v -> minv (put_shared W v)).
    { intros v S Rv. destruct (step_objects _ _ _ R S) as [N1 [N2 KD]]. cbn in N1, N2, KD. split; [|exact (ri_hcon v Rv)|exact (ri_hcost v Rv)].
      intro b. cbn. apply (listed_ext W); [apply (mi_lists W M)|exact N1|exact N2|exact KD]. }
    destruct (step (base W) o) as [v|x v|]; cbn [out_map]; [apply G; [left; reflexivity|exact R']|apply G; [right; eauto|exact R']|exact I].
  - destruct ((c <? K) && negb (is_shared o) && can_write W o) eqn:CW; [|exact M]. pose proof (view_inv K c W M) as R. pose proof (step_inv _ o R) as R'.
    assert (SH : is_shared o = false) by (destruct (is_shared o); [rewrite andb_false_r in CW; discriminate CW|reflexivity]).
    assert (G : forall v, step (view K c W) o = Ok v \/ (exists x, step (view K c W) o = Throw x v) -> reg_inv v -> minv (put c W v)).
    { intros v S Rv. destruct (step_objects _ _ _ R S) as [N1 [N2 KD]]. pose proof (step_pointers _ _ _ R S) as SP. cbn in N1, N2, KD.
      split; cbn.
      - intro b. unfold upd. destruct (Nat.eqb_spec b c) as [->|D].
        + destruct Rv. repeat split; assumption.
        + apply (listed_ext W); [apply (mi_lists W M)|exact N1|exact N2|exact KD].
      - intros i Hi. apply (mi_hcon W M). lia.
      - intros i Hi. apply (mi_hcost W M). lia. }
    destruct (step (view K c W) o) as [v|x v|]; cbn [out_map]; [apply G; [left; reflexivity|exact R']|apply G; [right; eauto|exact R']|exact I].
Qed.
Lemma minv_run K h : forall W W', minv W -> mrun K W h = Some W' -> minv W'.
Proof.
  induction h as [|a t IH]; intros W W' M H; cbn in H; [injection H as <-; exact M|]. pose proof (minv_step K W a M) as X.
  destruct (mstep K W a) as [V|x V|]; [| |discriminate H]; exact (IH V W' X H).
Qed.

(** ** The handles of the user *)
Definition user_calls (h : list mop) : list op :=
  flat_map (fun a => match a with MShared o => if is_shared o then [o] else [] | MCtl _ _ => [] end) h.
Lemma mrun_pointers K h : forall W W', minv W -> mrun K W h = Some W' ->
  (forall i, mhcon W' i = con_pointers i (mncon W) (mhcon W i) (user_calls h)) /\
  (forall i, mhcost W' i = cost_pointers i (mncost W) (mhcost W i) (user_calls h)).
Proof.
  induction h as [|a t IH]; intros W W' M H; cbn in H; [injection H as <-; split; reflexivity|]. pose proof (minv_step K W a M) as X.
  assert (G : forall V, mstep K W a = Ok V \/ (exists x, mstep K W a = Throw x V) -> minv V -> mrun K V t = Some W' ->
    (forall i, mhcon W' i = con_pointers i (mncon W) (mhcon W i) (user_calls (a :: t))) /\
    (forall i, mhcost W' i = cost_pointers i (mncost W) (mhcost W i) (user_calls (a :: t)))).
  { intros V S MV HV. destruct (IH V W' MV HV) as [I1 I2]. destruct a as [o|c o]; cbn [mstep] in S; cbn [user_calls flat_map].
    - fold (user_calls t). destruct (is_shared o).
      + assert (S' : exists v, V = put_shared W v /\ (step (base W) o = Ok v \/ (exists x, step (base W) o = Throw x v))).
        { destruct (step (base W) o) as [v|y v|]; cbn [out_map] in S; destruct S as [S|[x S]]; try discriminate S; injection S; intros; subst; eauto. }
        destruct S' as [v [-> S']]. destruct (step_pointer_counts _ _ _ (base_inv W M) S' (user_calls t)) as [P1 P2]. cbn in P1, P2.
        split; intro i; [rewrite I1; cbn [app]; symmetry; apply P1|rewrite I2; cbn [app]; symmetry; apply P2].
      + destruct S as [S|[x S]]; [|discriminate S]. injection S as <-. cbn [app]. split; assumption.
    - fold (user_calls t). cbn [app]. destruct ((c <? K) && negb (is_shared o) && can_write W o) eqn:CW; [|destruct S as [S|[x S]]; [|discriminate S]; injection S as <-; split; assumption].
      assert (SH : is_shared o = false) by (destruct (is_shared o); [rewrite andb_false_r in CW; discriminate CW|reflexivity]).
      assert (S' : exists v, V = put c W v /\ (step (view K c W) o = Ok v \/ (exists x, step (view K c W) o = Throw x v))).
      { destruct (step (view K c W) o) as [v|y v|]; cbn [out_map] in S; destruct S as [S|[x S]]; try discriminate S; injection S; intros; subst; eauto. }
      destruct S' as [v [-> S']]. pose proof (step_pointers _ _ _ (view_inv K c W M) S') as SP.
      assert (E : same_pointers (view K c W) v) by (destruct o; try discriminate SH; exact SP).
      destruct E as [E1 [E2 _]]. cbn in E1, E2. cbn [put mhcon mhcost mncon mncost] in I1, I2. rewrite E1 in I1. rewrite E2 in I2. split; assumption. }
  destruct (mstep K W a) as [V|x V|]; [| |discriminate H]; apply (G V); eauto.
Qed.

(** ** The solve of one controller *)
Lemma msolve_lists K c e W W' : minv W -> c < K -> mstep K W (MCtl c (OSolve e)) = Ok W' ->
  (forall a, a <> c -> mctl W' a = mctl W a) /\ mhcon W' = mhcon W /\ mhcost W' = mhcost W /\
  let keep := survives (fun i => mhcon W i + others K c (fun a => held_con (mctl W a) i)) (spC (mctl W c)) in
  spC (mctl W' c) = filter keep (spC (mctl W c)) /\ spEq (mctl W' c) = filter keep (spEq (mctl W c)) /\
  spIneq (mctl W' c) = filter keep (spIneq (mctl W c)) /\ spB (mctl W' c) = filter keep (spB (mctl W c)) /\
  spCost (mctl W' c) = filter (survives (fun i => mhcost W i + others K c (fun a => held_cost (mctl W a) i)) (spCost (mctl W c))) (spCost (mctl W c)).
Proof.
  intros M Hc. cbn [mstep is_shared negb can_write]. rewrite (proj2 (Nat.ltb_lt c K) Hc). cbn [andb step].
  destruct (solve e (view K c W)) as [[b v]|] eqn:E; cbn [out_map]; [|discriminate]. intro H. injection H as <-.
  destruct (solve_lists e _ b v (view_inv K c W M) E) as [_ [_ [H1 [H2 [H3 [H4 H5]]]]]]. cbn in H1, H2, H3, H4, H5. cbn.
  split; [intros a Ha; unfold upd; rewrite (proj2 (Nat.eqb_neq a c) Ha); reflexivity|]. unfold upd. rewrite Nat.eqb_refl.
  split; [reflexivity|]. split; [reflexivity|]. repeat split; assumption.
Qed.
Lemma filter_count (f : nat -> bool) l i : f i = true -> count_occ Nat.eq_dec (filter f l) i = count_occ Nat.eq_dec l i.
Proof.
  intros Hf. induction l as [|a t IH]; [reflexivity|]. cbn [filter]. destruct (Nat.eq_dec a i) as [->|D].
  - rewrite Hf, !count_occ_cons_eq by reflexivity. rewrite IH. reflexivity.
  - rewrite (count_occ_cons_neq _ t D). destruct (f a); [rewrite (count_occ_cons_neq _ _ D)|]; exact IH.
Qed.
Lemma survives_held h l i : 0 < h i -> survives h l i = true.
Proof. intro H. unfold survives. rewrite (proj2 (Nat.eqb_neq _ 0)) by lia. reflexivity. Qed.
