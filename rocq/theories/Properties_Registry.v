(** Properties_Registry.v -- C29, C31, C32, C33, C47: what is registered after any history of calls. *)
From Verif Require Import Base Eigen Preview SpecApi AutoSpan Constraints Costs Controller Registry Checkers SpecController.

Lemma reached_inv h w : reached h w -> reg_inv w.
Proof. intro H. exact (run_inv h _ _ world0_inv H). Qed.

Lemma registered_of_type t w : registered_of t w = of_type (wcon w) t (spC (ctl w)).
Proof. reflexivity. Qed.

Lemma remove_first_first i l : In i l -> first_removed i l (remove_first i l).
Proof.
  induction l as [|x t IH]; intro H; [contradiction|]. cbn [remove_first].
  destruct (Nat.eqb_spec x i) as [->|N].
  - exists [], t. repeat split. intros [].
  - destruct H as [H|H]; [congruence|]. destruct (IH H) as [a [b [E1 [E2 E3]]]].
    exists (x :: a), b. rewrite E1 at 1. rewrite E3. repeat split. intros [X|X]; [congruence|contradiction].
Qed.
Lemma remove_first_none i l : ~ In i l -> remove_first i l = l.
Proof.
  induction l as [|x t IH]; intro H; [reflexivity|]. cbn [remove_first].
  destruct (Nat.eqb_spec x i) as [->|N]; [exfalso; apply H; left; reflexivity|].
  rewrite IH; [reflexivity|]. intro X. apply H. right. exact X.
Qed.

(** ** C29 *)
Theorem C29_registry : forall h w, reached h w ->
  (* the lists of the classes are the sublists of the list of all constraints *)
  spEq (ctl w) = registered_of EqualityConstraint w /\
  spIneq (ctl w) = registered_of InequalityConstraint w /\
  spB (ctl w) = registered_of BoundConstraint w /\
  (* only objects that exist are registered *)
  (forall i, In i (spC (ctl w)) -> i < ncon w) /\ (forall i, In i (spCost (ctl w)) -> i < ncost w) /\
  (* removeConstraint is defined, removes the first registration of its argument and nothing else *)
  (forall i, exists w', removeConstraint w i = Some w' /\
     (In i (spC (ctl w)) -> first_removed i (spC (ctl w)) (spC (ctl w'))) /\
     (~ In i (spC (ctl w)) -> w' = w) /\
     spEq (ctl w') = registered_of EqualityConstraint w' /\
     spIneq (ctl w') = registered_of InequalityConstraint w' /\
     spB (ctl w') = registered_of BoundConstraint w' /\
     w' = set_ctl w (set_lists (ctl w) (nrEq (ctl w)) (nrIneq (ctl w))
            (spC (ctl w')) (spEq (ctl w')) (spIneq (ctl w')) (spB (ctl w')))).
Proof.
  intros h w H. apply reached_inv in H. pose proof H as [].
  split; [exact ri_eq|]. split; [exact ri_ineq|]. split; [exact ri_b|]. split; [exact ri_con|]. split; [exact ri_cost|].
  intro i. destruct (removeConstraint_ok w i H) as [w' [E [R [E1 [_ [_ [_ E5]]]]]]].
  exists w'. split; [exact E|]. pose proof R as [].
  split; [intro Hi; rewrite E1; apply remove_first_first; exact Hi|].
  split.
  - intro Hi. unfold removeConstraint in E. rewrite erase_first_spec in E.
    destruct (in_dec Nat.eq_dec i (spC (ctl w))); [contradiction|]. congruence.
  - auto.
Qed.
Print Assumptions C29_registry.

(** a history with two additions of the same constraint, a removal, a rejected addition and a solve *)
Definition ex29 : list op := h_start ++
  [ONewCon d_traj; ONewCon d_eq; ONewCon (DCtrl (mlit [[1; 0]]%Z) (elit [fin 5]) true); ONewCon d_bound;
   OAddCon j0 0; OAddCon j0 1; OAddCon j0 0; OAddCon j0 2; OAddCon j0 3; ORemoveCon 0; OSolve env_ok].
Example C29_example :
  match run world0 ex29 with
  | Some w => (spC (ctl w), spEq (ctl w), spIneq (ctl w), spB (ctl w)) = ([1; 0; 3], [1], [0], [3])
  | None => False end.
Proof. vm_compute. reflexivity. Qed.

(** ** C32: solve drops only constraints and costs without an outside owner, and keeps the order *)
Lemma solve_lists e w b w' : reg_inv w -> solve e w = Some (b, w') ->
  hcon w' = hcon w /\ hcost w' = hcost w /\
  let keep := survives (hcon w) (spC (ctl w)) in
  spC (ctl w') = filter keep (spC (ctl w)) /\ spEq (ctl w') = filter keep (spEq (ctl w)) /\
  spIneq (ctl w') = filter keep (spIneq (ctl w)) /\ spB (ctl w') = filter keep (spB (ctl w)) /\
  spCost (ctl w') = filter (survives (hcost w) (spCost (ctl w))) (spCost (ctl w)).
Proof.
  intros R H. destruct (solve_parts _ _ _ _ H) as [w1 [r [Eb [_ [w4 [E4 ->]]]]]].
  destruct (build_kept _ _ _ Eb) as [K _]. pose proof K as K0.
  destruct K as [A1 [A2 [A3 [A4 [A5 [A6 [A7 [A8 [A9 A10]]]]]]]]].
  set (w2 := set_ctl w1 _) in E4.
  assert (R2 : reg_inv w2) by (apply (kept_inv w1); [eapply kept_inv; eassumption|repeat split]).
  assert (X : spC (ctl w4) = spC (ctl (checkDelete w2)) /\ spEq (ctl w4) = spEq (ctl (checkDelete w2)) /\
     spIneq (ctl w4) = spIneq (ctl (checkDelete w2)) /\ spB (ctl w4) = spB (ctl (checkDelete w2)) /\
     spCost (ctl w4) = spCost (ctl (checkDelete w2)) /\ hcon w4 = hcon w2 /\ hcost w4 = hcost w2).
  { cbv zeta in E4. destruct b.
    - destruct (updateResults_kept _ _ E4) as [[B1 [B2 [B3 [B4 [B5 [B6 [B7 [B8 [B9 _]]]]]]]]] _]. repeat split; assumption.
    - injection E4 as <-. repeat split. }
  destruct X as [X1 [X2 [X3 [X4 [X5 [X6 X7]]]]]].
  destruct (checkDelete_ok w2 R2) as [lk [Hk Ed]]. cbv zeta in Ed. rewrite Ed in X1, X2, X3, X4, X5.
  unfold w2 in *. cbn in *. rewrite Hk in X5. rewrite X1, X2, X3, X4, X5, X6, X7, A1, A2, A3, A4, A5, A8, A9. auto 10.
Qed.

Theorem C32_owned_are_kept : forall h w e b w', reached h w -> solve e w = Some (b, w') ->
  exists keepC keepK : nat -> bool,
    spC (ctl w') = filter keepC (spC (ctl w)) /\ spEq (ctl w') = filter keepC (spEq (ctl w)) /\
    spIneq (ctl w') = filter keepC (spIneq (ctl w)) /\ spB (ctl w') = filter keepC (spB (ctl w)) /\
    spCost (ctl w') = filter keepK (spCost (ctl w)) /\
    (forall i, 0 < hcon w i -> keepC i = true) /\ (forall i, 0 < hcost w i -> keepK i = true).
Proof.
  intros h w e b w' R H. apply reached_inv in R.
  destruct (solve_lists e w b w' R H) as [_ [_ [H1 [H2 [H3 [H4 H5]]]]]].
  eexists _, _. split; [exact H1|]. split; [exact H2|]. split; [exact H3|]. split; [exact H4|]. split; [exact H5|].
  split; intros i Hi; unfold survives; rewrite (proj2 (Nat.eqb_neq _ 0)) by lia; reflexivity.
Qed.
Print Assumptions C32_owned_are_kept.

(** every entry of the lists stays when everything is owned: a history with owned objects and a solve *)
Definition ex32 : list op := h_start ++
  [ONewCon d_traj; ONewCon d_eq; ONewCost d_cost; ONewCost d_cost; OAddCon j0 0; OAddCon j0 1; OAddCost j0 0; OAddCost j0 1;
   OReleaseCon 0; OReleaseCost 0; OSolve env_ok].
Example C32_example :
  match run world0 ex32 with
  | Some w => (spC (ctl w), spEq (ctl w), spIneq (ctl w), spCost (ctl w)) = ([1], [1], [], [1])
  | None => False end.
Proof. vm_compute. reflexivity. Qed.

(** ** C33: what nobody else owns is dropped -- if it was registered once *)
Theorem C33_unowned_are_dropped_partial : forall h w e b w', reached h w -> solve e w = Some (b, w') ->
  (forall i, hcon w i = 0 -> count_occ Nat.eq_dec (spC (ctl w)) i <= 1 ->
     ~ In i (spC (ctl w')) /\ ~ In i (spEq (ctl w')) /\ ~ In i (spIneq (ctl w')) /\ ~ In i (spB (ctl w'))) /\
  (forall i, hcost w i = 0 -> count_occ Nat.eq_dec (spCost (ctl w)) i <= 1 -> ~ In i (spCost (ctl w'))).
Proof.
  intros h w e b w' R H. apply reached_inv in R.
  destruct (solve_lists e w b w' R H) as [_ [_ [H1 [H2 [H3 [H4 H5]]]]]].
  split.
  - intros i Hh Hc.
    assert (S : survives (hcon w) (spC (ctl w)) i = false).
    { unfold survives. rewrite Hh. cbn [Nat.eqb negb orb]. apply Nat.ltb_ge. exact Hc. }
    rewrite H1, H2, H3, H4. repeat split; rewrite filter_In, S; intros [_ X]; discriminate.
  - intros i Hh Hc.
    assert (S : survives (hcost w) (spCost (ctl w)) i = false).
    { unfold survives. rewrite Hh. cbn [Nat.eqb negb orb]. apply Nat.ltb_ge. exact Hc. }
    rewrite H5, filter_In, S. intros [_ X]. discriminate.
Qed.
Print Assumptions C33_unowned_are_dropped_partial.

(** an object added twice and released is owned by the controller alone, and stays registered *)
Definition ex33 : list op := h_start ++
  [ONewCon d_traj; ONewCost d_cost; OAddCon j0 0; OAddCon j0 0; OAddCost j0 0; OAddCost j0 0; OReleaseCon 0; OReleaseCost 0].
Theorem C33_added_twice_refuted :
  exists h w e b w', reached h w /\ solve e w = Some (b, w') /\
    hcon w 0 = 0 /\ hcost w 0 = 0 /\ In 0 (spC (ctl w')) /\ In 0 (spCost (ctl w')).
Proof.
  exists ex33.
  assert (X : match run world0 ex33 with
              | Some w => match solve env_ok w with
                          | Some (_, w') => Nat.eqb (hcon w 0) 0 && Nat.eqb (hcost w 0) 0 &&
                              existsb (Nat.eqb 0) (spC (ctl w')) && existsb (Nat.eqb 0) (spCost (ctl w'))
                          | None => false end
              | None => false end = true) by (vm_compute; reflexivity).
  destruct (run world0 ex33) as [w|] eqn:Ew; [|discriminate].
  destruct (solve env_ok w) as [[b w']|] eqn:Es; [|discriminate].
  apply andb_true_iff in X as [X X4]. apply andb_true_iff in X as [X X3]. apply andb_true_iff in X as [X1 X2].
  apply Nat.eqb_eq in X1, X2. apply existsb_exists in X3 as [i [X3 I3]]. apply existsb_exists in X4 as [k [X4 I4]].
  apply Nat.eqb_eq in I3, I4. subst.
  exists w, env_ok, b, w'. auto 10.
Qed.
Print Assumptions C33_added_twice_refuted.

(** ** C47: timers *)
Theorem C47_timers : forall e w b w', solve e w = Some (b, w') ->
  (s_t0 e <= s_t1 e)%Qc -> (s_t1 e <= s_t2 e)%Qc -> (s_t2 e <= s_t3 e)%Qc ->
  exists st sbt, solveTime (ctl w') = Some st /\ sabTime (ctl w') = Some sbt /\
    st = (s_t2 e - s_t1 e)%Qc /\ sbt = (s_t3 e - s_t0 e)%Qc /\ (0 <= st)%Qc /\ (st <= sbt)%Qc.
Proof.
  intros e w b w' H T0 T1 T2.
  destruct (solve_parts _ _ _ _ H) as [w1 [r [Eb [_ [w4 [E4 ->]]]]]]. cbv zeta in E4.
  assert (X : solveTime (ctl w4) = Some (s_t2 e - s_t1 e)%Qc).
  { destruct b; [|injection E4 as <-; reflexivity].
    destruct (updateResults_kept _ _ E4) as [_ [x [u ->]]]. reflexivity. }
  eexists _, _. split; [exact X|]. split; [reflexivity|]. split; [reflexivity|]. split; [reflexivity|].
  split; qc_lra.
Qed.
Print Assumptions C47_timers.
Example C47_example :
  match run world0 (h_start ++ [ONewCost d_cost; OAddCost j0 0; OSolve env_ok]) with
  | Some w => match solveTime (ctl w), sabTime (ctl w) with
              | Some a, Some b => qeqb a (qz 2) && qeqb b (qz 4) | _, _ => false end
  | None => false end = true.
Proof. vm_compute. reflexivity. Qed.

(** ** C32: the pointers counted are those the user made, copied and dropped *)
Lemma with_con_other w i f w' (P : world -> Prop) : with_con w i f = Ok w' \/ (exists x, with_con w i f = Throw x w') -> P w ->
  (f w = Ok w' \/ (exists x, f w = Throw x w') -> P w') -> P w'.
Proof.
  unfold with_con. intros H Pw F. destruct (0 <? hcon w i); [exact (F H)|]. destruct H as [H|[x H]]; [injection H as <-; exact Pw|discriminate H].
Qed.
Lemma with_cost_other w i f w' (P : world -> Prop) : with_cost w i f = Ok w' \/ (exists x, with_cost w i f = Throw x w') -> P w ->
  (f w = Ok w' \/ (exists x, f w = Throw x w') -> P w') -> P w'.
Proof.
  unfold with_cost. intros H Pw F. destruct (0 <? hcost w i); [exact (F H)|]. destruct H as [H|[x H]]; [injection H as <-; exact Pw|discriminate H].
Qed.
Lemma solve_counts e w b w' : reg_inv w -> solve e w = Some (b, w') -> ncon w' = ncon w /\ ncost w' = ncost w.
Proof.
  intros R H. destruct (solve_parts _ _ _ _ H) as [w1 [r [Eb [_ [w4 [E4 ->]]]]]].
  destruct (build_kept _ _ _ Eb) as [K _]. pose proof K as K0. destruct K as [_ [_ [_ [_ [_ [A6 [A7 _]]]]]]].
  set (w2 := set_ctl w1 _) in E4.
  assert (R2 : reg_inv w2) by (apply (kept_inv w1); [eapply kept_inv; eassumption|repeat split]).
  destruct (checkDelete_ok w2 R2) as [lk [Hk Ed]]. cbv zeta in Ed, E4. cbn. destruct b.
  - destruct (updateResults_kept _ _ E4) as [[_ [_ [_ [_ [_ [B6 [B7 _]]]]]]] _]. rewrite B6, B7, Ed. cbn. split; assumption.
  - injection E4 as <-. rewrite Ed. cbn. split; assumption.
Qed.
Definition same_pointers (w w' : world) : Prop := ncon w' = ncon w /\ ncost w' = ncost w /\ hcon w' = hcon w /\ hcost w' = hcost w.
Lemma step_pointers w o w' : reg_inv w -> step w o = Ok w' \/ (exists x, step w o = Throw x w') ->
  match o with ONewCon _ | OHoldCon _ | OReleaseCon _ | ONewCost _ | OHoldCost _ | OReleaseCost _ => True | _ => same_pointers w w' end.
Proof.
  intro RI. assert (RF : same_pointers w w) by (repeat split).
  assert (IC : forall j v p v', initializeController j v p = Some v' -> same_pointers v v').
  { intros j v p v'. unfold initializeController, clearConstraintMatrices. destruct (fits_int _); [|discriminate]. cbn [obind]. intro H. injection H as <-. repeat split. }
  destruct o; cbn [step]; try (intros _; exact I); intro H.
  - destruct (ps_step (wps w p) o); cbn in H; destruct H as [H|[x H]]; try discriminate H; injection H; intros; subst; repeat split.
  - eapply with_con_other; [exact H|exact RF|]. intros [E|[x E]]; destruct (c_autoSpan j (wcon w i)); cbn in E; try discriminate E; injection E; intros; subst; repeat split.
  - eapply with_cost_other; [exact H|exact RF|]. intros [E|[x E]]; destruct (k_autoSpan j (wcost w i)); cbn in E; try discriminate E; injection E; intros; subst; repeat split.
  - eapply with_cost_other; [exact H|exact RF|]. intros [E|[x E]]; destruct (k_weights (wcost w i) v); cbn in E; try discriminate E; injection E; intros; subst; repeat split.
  - eapply with_cost_other; [exact H|exact RF|]. intros [E|[y E]]; try discriminate E; injection E; intros; subst; repeat split.
  - destruct (construct j k r w) as [v|] eqn:E; cbn in H; destruct H as [H|[x H]]; try discriminate H. injection H as <-.
    unfold construct in E. destruct k as [|p| |p]; cbv zeta in E; try (injection E as <-; repeat split); apply IC in E; exact E.
  - destruct (initializeController j w p) as [v|] eqn:E; cbn in H; destruct H as [H|[x H]]; try discriminate H. injection H as <-. exact (IC _ _ _ _ E).
  - eapply with_cost_other; [exact H|exact RF|]. unfold addCost. destruct (m_ps (ctl w)) as [p|]; [|intros [E|[x E]]; discriminate E].
    destruct (initializeCost j (wps w p) (wcost w i)); intros [E|[x E]]; cbn in E; try discriminate E; injection E; intros; subst; repeat split.
  - eapply with_con_other; [exact H|exact RF|]. unfold addConstraint. destruct (m_ps (ctl w)) as [p|]; [|intros [E|[x E]]; discriminate E].
    destruct (initializeConstraint j (wps w p) (wcon w i)) as [c|x c|]; intros [E|[y E]]; cbn in E; try discriminate E.
    + destruct (addConstraintByType (set_con w i c) i) as [v|] eqn:A; cbn in E; [|discriminate E]. injection E as <-. revert A. unfold addConstraintByType.
      destruct (constraintType _); repeat match goal with |- context [fits_int ?a] => destruct (fits_int a) end; cbn [obind]; intro A; try discriminate A; injection A as <-; repeat split.
    + destruct (addConstraintByType (set_con w i c) i); discriminate E.
    + injection E; intros; subst; repeat split.
  - eapply with_cost_other; [exact H|exact RF|]. intros [E|[x E]]; try discriminate E. injection E as <-. unfold removeCost. destruct (erase_first _ _); repeat split.
  - eapply with_con_other; [exact H|exact RF|]. cbv beta. destruct (removeConstraint w i) as [v|] eqn:E0; intros [E|[x E]]; cbn in E; try discriminate E. injection E as <-.
    revert E0. unfold removeConstraint. destruct (erase_first i (spC (ctl w))); [|intro E0; injection E0 as <-; exact RF].
    destruct (constraintType _); repeat match goal with |- context [erase_first i ?l] => destruct (erase_first i l) end; cbn [obind]; intro E0; try discriminate E0; injection E0 as <-; repeat split.
  - destruct H as [H|[x H]]; try discriminate H. injection H as <-. repeat split.
  - destruct (clearConstraints w) as [v|] eqn:E; cbn in H; destruct H as [H|[x H]]; try discriminate H. injection H as <-. revert E. unfold clearConstraints.
    destruct (m_ps (ctl w)) as [p|]; cbn; [|discriminate]. unfold clearConstraintMatrices. destruct (fits_int _); cbn; [|discriminate]. intro E. injection E as <-. repeat split.
  - destruct H as [H|[x H]]; try discriminate H. injection H as <-. repeat split.
  - destruct (solve e w) as [[b v]|] eqn:E; destruct H as [H|[x H]]; try discriminate H. injection H as <-. destruct (solve_lists e w b v RI E) as [A [B _]]. destruct (solve_counts e w b v RI E) as [C D]. repeat split; assumption.
  - destruct H as [H|[x H]]; try discriminate H. injection H as <-. repeat split.
  - destruct H as [H|[x H]]; try discriminate H. injection H as <-. repeat split.
Qed.
Lemma step_pointer_counts w o w' : reg_inv w -> step w o = Ok w' \/ (exists x, step w o = Throw x w') -> forall t,
  (forall i, con_pointers i (ncon w) (hcon w i) (o :: t) = con_pointers i (ncon w') (hcon w' i) t) /\
  (forall i, cost_pointers i (ncost w) (hcost w i) (o :: t) = cost_pointers i (ncost w') (hcost w' i) t).
Proof.
  intros RI H t. pose proof (step_pointers w o w' RI H) as SP.
  destruct o; cbn [con_pointers cost_pointers]; try (unfold same_pointers in SP; destruct SP as [P1 [P2 [P3 P4]]]; rewrite P1, P2, P3, P4; split; reflexivity); clear SP.
  - destruct H as [H|[x H]]; [|discriminate H]. cbn [step] in H. injection H as <-. cbn. split; [|reflexivity]. intro i. unfold upd. rewrite (Nat.eqb_sym (ncon w) i). reflexivity.
  - revert H. cbn [step]. unfold with_con. destruct (0 <? hcon w i) eqn:L; (intros [H|[x H]]; [|discriminate H]); injection H as <-; cbn [set_hcon set_hcost ncon hcon ncost hcost]; (split; [|reflexivity]); intro k.
    + unfold upd. rewrite (Nat.eqb_sym i k). destruct (Nat.eqb_spec k i) as [->|D]; [|reflexivity]. rewrite L. cbn [andb]. f_equal. lia.
    + destruct (Nat.eqb_spec i k) as [->|D]; [|reflexivity]. rewrite L. reflexivity.
  - revert H. cbn [step]. unfold with_con. destruct (0 <? hcon w i) eqn:L; (intros [H|[x H]]; [|discriminate H]); injection H as <-; cbn [set_hcon set_hcost ncon hcon ncost hcost]; (split; [|reflexivity]); intro k.
    + unfold upd. rewrite (Nat.eqb_sym i k). destruct (Nat.eqb_spec k i) as [->|D]; [|reflexivity]. f_equal. lia.
    + destruct (Nat.eqb_spec i k) as [->|D]; [|reflexivity]. apply Nat.ltb_ge in L. f_equal. lia.
  - destruct H as [H|[x H]]; [|discriminate H]. cbn [step] in H. injection H as <-. cbn. split; [reflexivity|]. intro i. unfold upd. rewrite (Nat.eqb_sym (ncost w) i). reflexivity.
  - revert H. cbn [step]. unfold with_cost. destruct (0 <? hcost w i) eqn:L; (intros [H|[x H]]; [|discriminate H]); injection H as <-; cbn [set_hcon set_hcost ncon hcon ncost hcost]; (split; [reflexivity|]); intro k.
    + unfold upd. rewrite (Nat.eqb_sym i k). destruct (Nat.eqb_spec k i) as [->|D]; [|reflexivity]. rewrite L. cbn [andb]. f_equal. lia.
    + destruct (Nat.eqb_spec i k) as [->|D]; [|reflexivity]. rewrite L. reflexivity.
  - revert H. cbn [step]. unfold with_cost. destruct (0 <? hcost w i) eqn:L; (intros [H|[x H]]; [|discriminate H]); injection H as <-; cbn [set_hcon set_hcost ncon hcon ncost hcost]; (split; [reflexivity|]); intro k.
    + unfold upd. rewrite (Nat.eqb_sym i k). destruct (Nat.eqb_spec k i) as [->|D]; [|reflexivity]. f_equal. lia.
    + destruct (Nat.eqb_spec i k) as [->|D]; [|reflexivity]. apply Nat.ltb_ge in L. f_equal. lia.
Qed.
Lemma run_pointers h : forall w w', reg_inv w -> run w h = Some w' ->
  (forall i, hcon w' i = con_pointers i (ncon w) (hcon w i) h) /\ (forall i, hcost w' i = cost_pointers i (ncost w) (hcost w i) h).
Proof.
  induction h as [|o t IH]; intros w w' RI H; cbn [run] in H; [injection H as <-; split; reflexivity|].
  pose proof (step_inv w o RI) as RI'.
  assert (G : forall v, step w o = Ok v \/ (exists x, step w o = Throw x v) -> reg_inv v -> run v t = Some w' ->
    (forall i, hcon w' i = con_pointers i (ncon w) (hcon w i) (o :: t)) /\ (forall i, hcost w' i = cost_pointers i (ncost w) (hcost w i) (o :: t))).
  { intros v E Rv Hv. destruct (step_pointer_counts w o v RI E t) as [P1 P2]. destruct (IH v w' Rv Hv) as [I1 I2].
    split; intro i; [rewrite P1; apply I1|rewrite P2; apply I2]. }
  destruct (step w o) as [v|x v|]; [| |discriminate H]; apply (G v); eauto.
Qed.
(** a registered constraint (cost) is dropped by no solve as long as the user has a pointer to it *)
Theorem C32_pointers : forall h w, reached h w ->
  (forall i, hcon w i = con_pointers i 0 0 h) /\ (forall i, hcost w i = cost_pointers i 0 0 h).
Proof. intros h w R. exact (run_pointers h world0 w world0_inv R). Qed.
Print Assumptions C32_pointers.
Theorem C32_held_are_kept : forall h w e b w', reached h w -> solve e w = Some (b, w') ->
  (forall i, 0 < con_pointers i 0 0 h -> count_occ Nat.eq_dec (spC (ctl w')) i = count_occ Nat.eq_dec (spC (ctl w)) i) /\
  (forall i, 0 < cost_pointers i 0 0 h -> count_occ Nat.eq_dec (spCost (ctl w')) i = count_occ Nat.eq_dec (spCost (ctl w)) i).
Proof.
  intros h w e b w' R S. destruct (C32_owned_are_kept h w e b w' R S) as [kc [kk [E1 [_ [_ [_ [E5 [H1 H2]]]]]]]].
  destruct (C32_pointers h w R) as [P1 P2].
  assert (F : forall (f : nat -> bool) l i, f i = true -> count_occ Nat.eq_dec (filter f l) i = count_occ Nat.eq_dec l i).
  { intros f l i Hf. induction l as [|a t IH]; [reflexivity|]. cbn [filter]. destruct (Nat.eq_dec a i) as [->|D].
    - rewrite Hf, !count_occ_cons_eq by reflexivity. rewrite IH. reflexivity.
    - rewrite (count_occ_cons_neq _ t D). destruct (f a); [rewrite (count_occ_cons_neq _ _ D)|]; exact IH. }
  rewrite E1, E5. split; intros i Hi; apply F; [apply H1|apply H2]; rewrite ?P1, ?P2; exact Hi.
Qed.
Print Assumptions C32_held_are_kept.
(** made, copied once, dropped twice: none left; made, copied once, dropped once: one left, and the solve keeps it *)
Definition ex32p : list op := h_start ++
  [ONewCon d_traj; ONewCon d_traj; OHoldCon 0; OHoldCon 1; OAddCon j0 0; OAddCon j0 1; OReleaseCon 0; OReleaseCon 1; OReleaseCon 0;
   ONewCost d_cost; OHoldCost 0; OAddCost j0 0; OReleaseCost 0].
Example C32_pointers_example :
  con_pointers 0 0 0 ex32p = 0 /\ con_pointers 1 0 0 ex32p = 1 /\ cost_pointers 0 0 0 ex32p = 1 /\
  match run world0 (ex32p ++ [OSolve env_ok]) with Some w => (spC (ctl w), spCost (ctl w)) = ([1], [0]) | None => False end.
Proof. vm_compute. repeat split. Qed.
