(** EndToEnd.v -- what whole histories of calls leave in the objects, and what the problem built from them means. *)
From Verif Require Import Base Eigen Spec Preview SpecApi PreviewProofs AutoSpan AutoSpanProofs Constraints ConstraintProofs
  SpecConstraints ConstraintMeaning Checkers Costs SpecCosts CostProofs CostMeaning Properties_Costs Controller Registry SpecController Assembly
  Results SpecProtocol Protocol Properties_Protocol SpecEndToEnd SpanData Properties_Registry.

(** ** What one call changes *)
Definition stepped (w : world) (o : op) (w' : world) : Prop := step w o = Ok w' \/ exists x, step w o = Throw x w'.

Inductive con_change (w : world) (o : op) (i : nat) (c' : constr) : Prop :=
| cc_same : c' = wcon w i -> con_change w o i c'
| cc_new d : o = ONewCon d -> i = ncon w -> c' = new_con d -> con_change w o i c'
| cc_span j : o = OSpanCon j i -> (c_autoSpan j (wcon w i) = Ok c' \/ exists e, c_autoSpan j (wcon w i) = Throw e c') -> con_change w o i c'
| cc_init j p : o = OAddCon j i -> m_ps (ctl w) = Some p ->
    (initializeConstraint j (wps w p) (wcon w i) = Ok c' \/ exists e, initializeConstraint j (wps w p) (wcon w i) = Throw e c') -> con_change w o i c'
| cc_solve e p ps wc : o = OSolve e -> m_ps (ctl w) = Some p -> ensureUpdated (wps w p) = Some ps ->
    update_cons ps (spC (ctl w)) (wcon w) = Some wc -> c' = wc i -> con_change w o i c'.
Inductive cost_change (w : world) (o : op) (i : nat) (c' : cost) : Prop :=
| kc_same : c' = wcost w i -> (forall k v, o = OWeights k v -> k = i -> 0 < hcost w i -> False) ->
    (forall k x, o = OWeight k x -> k = i -> 0 < hcost w i -> False) ->
    (forall j, o = OAddCost j i -> 0 < hcost w i -> False) -> cost_change w o i c'
| kc_new d : o = ONewCost d -> i = ncost w -> c' = new_cost d -> cost_change w o i c'
| kc_span j : o = OSpanCost j i -> (k_autoSpan j (wcost w i) = Ok c' \/ exists e, k_autoSpan j (wcost w i) = Throw e c') -> cost_change w o i c'
| kc_weights v : o = OWeights i v -> (k_weights (wcost w i) v = Ok c' \/ exists e, k_weights (wcost w i) v = Throw e c') -> cost_change w o i c'
| kc_weight x : o = OWeight i x -> c' = k_weight (wcost w i) x -> cost_change w o i c'
| kc_init j p : o = OAddCost j i -> m_ps (ctl w) = Some p ->
    (initializeCost j (wps w p) (wcost w i) = Ok c' \/ exists e, initializeCost j (wps w p) (wcost w i) = Throw e c') -> cost_change w o i c'
| kc_solve e p ps wk : o = OSolve e -> m_ps (ctl w) = Some p -> ensureUpdated (wps w p) = Some ps ->
    update_costs ps (spCost (ctl w)) (wcost w) = Some wk -> c' = wk i -> cost_change w o i c'.

Lemma initController_objs j w p w' : initializeController j w p = Some w' ->
  wcon w' = wcon w /\ wcost w' = wcost w /\ ncon w' = ncon w /\ ncost w' = ncost w /\ hcost w' = hcost w /\
  spCost (ctl w') = spCost (ctl w) /\ spC (ctl w') = spC (ctl w).
Proof.
  unfold initializeController, clearConstraintMatrices. destruct (fits_int _); [|discriminate]. cbn [obind]. intro H. injection H as <-.
  cbn. auto 10.
Qed.
Lemma construct_objs j k r w w' : construct j k r w = Some w' ->
  wcon w' = wcon w /\ wcost w' = wcost w /\ ncon w' = ncon w /\ ncost w' = ncost w /\ hcost w' = hcost w /\
  spCost (ctl w') = [] /\ spC (ctl w') = [].
Proof.
  destruct k; cbn [construct]; intro H; try (injection H as <-; cbn; auto 10); apply initController_objs in H; exact H.
Qed.
Lemma removeConstraint_objs w i w' : removeConstraint w i = Some w' ->
  wcon w' = wcon w /\ wcost w' = wcost w /\ ncon w' = ncon w /\ ncost w' = ncost w /\ hcost w' = hcost w /\
  spCost (ctl w') = spCost (ctl w).
Proof.
  unfold removeConstraint. intro H. destruct (erase_first i (spC (ctl w))); [|injection H as <-; auto 10].
  destruct (constraintType _); (destruct (erase_first i _); [|discriminate]); cbn [obind] in H; injection H as <-; cbn; auto 10.
Qed.
Lemma clearConstraints_objs w w' : clearConstraints w = Some w' ->
  wcon w' = wcon w /\ wcost w' = wcost w /\ ncon w' = ncon w /\ ncost w' = ncost w /\ hcost w' = hcost w /\
  spCost (ctl w') = spCost (ctl w).
Proof.
  unfold clearConstraints, clearConstraintMatrices. destruct (m_ps (ctl w)); [|discriminate].
  destruct (fits_int _); [|discriminate]. cbn [obind]. intro H. injection H as <-. cbn. auto 10.
Qed.
Lemma addConstraint_objs j w i w' : (addConstraint j w i = Ok w' \/ exists x, addConstraint j w i = Throw x w') ->
  exists p c, m_ps (ctl w) = Some p /\
    (initializeConstraint j (wps w p) (wcon w i) = Ok c \/ exists e, initializeConstraint j (wps w p) (wcon w i) = Throw e c) /\
    wcon w' = upd (wcon w) i c /\ wcost w' = wcost w /\ ncon w' = ncon w /\ ncost w' = ncost w /\ hcost w' = hcost w /\
    spCost (ctl w') = spCost (ctl w).
Proof.
  unfold addConstraint. intro H. destruct (m_ps (ctl w)) as [p|]; [|destruct H as [H|[? H]]; discriminate H].
  exists p. destruct (initializeConstraint _ _ _) as [c|x c|]; destruct H as [H|[? H]]; try discriminate H.
  - unfold of_opt in H. destruct (addConstraintByType _ _) as [v|] eqn:E; [|discriminate]. injection H as <-.
    exists c. unfold addConstraintByType in E. cbn in E.
    destruct (constraintType _); try (destruct (fits_int _); [|discriminate]); injection E as <-; cbn; auto 12.
  - unfold of_opt in H. destruct (addConstraintByType _ _); discriminate H.
  - injection H as _ <-. exists c. cbn. eauto 12.
Qed.
Lemma addCost_objs j w i w' : (addCost j w i = Ok w' \/ exists x, addCost j w i = Throw x w') ->
  exists p c, m_ps (ctl w) = Some p /\
    (initializeCost j (wps w p) (wcost w i) = Ok c /\ spCost (ctl w') = spCost (ctl w) ++ [i] \/
     (exists e, initializeCost j (wps w p) (wcost w i) = Throw e c) /\ spCost (ctl w') = spCost (ctl w)) /\
    wcon w' = wcon w /\ wcost w' = upd (wcost w) i c /\ ncon w' = ncon w /\ ncost w' = ncost w /\ hcost w' = hcost w.
Proof.
  unfold addCost. intro H. destruct (m_ps (ctl w)) as [p|]; [|destruct H as [H|[? H]]; discriminate H].
  exists p. destruct (initializeCost _ _ _) as [c|x c|]; destruct H as [H|[? H]]; try discriminate H;
    injection H; intros; subst; exists c; cbn; eauto 12.
Qed.
Lemma check_in uc lim : forall l kept i, In i (check uc lim kept l) -> In i kept \/ In i l.
Proof.
  induction l as [|x t IH]; intros kept i; cbn [check]; [auto|].
  destruct (_ <=? _); intro H; apply IH in H.
  - destruct H; auto. right. right. assumption.
  - rewrite in_app_iff in H. destruct H as [[H|[<-|[]]]|H]; auto; right; [left; reflexivity|right; assumption].
Qed.
Lemma updateResults_form w w' : updateResults w = Some w' -> exists x u, w' = set_ctl w (set_result (ctl w) x u).
Proof.
  unfold updateResults. intro H. destruct (m_ps (ctl w)) as [p|]; [|discriminate]. cbv zeta in H.
  destruct (m_is (ctl w)); unfold obind in H; break_match H; injection H as <-; eauto.
Qed.
Lemma checkDelete_objs w :
  wps (checkDelete w) = wps w /\ wcon (checkDelete w) = wcon w /\ wcost (checkDelete w) = wcost w /\
  ncon (checkDelete w) = ncon w /\ ncost (checkDelete w) = ncost w /\ hcost (checkDelete w) = hcost w /\
  forall i, In i (spCost (ctl (checkDelete w))) -> In i (spCost (ctl w)).
Proof.
  unfold checkDelete. cbn. do 6 (split; [reflexivity|]). intros i H. apply check_in in H as [[]|H]. exact H.
Qed.
Lemma solve_objs e w b w' : solve e w = Some (b, w') ->
  exists p ps wc wk, m_ps (ctl w) = Some p /\ ensureUpdated (wps w p) = Some ps /\
    update_cons ps (spC (ctl w)) (wcon w) = Some wc /\ update_costs ps (spCost (ctl w)) (wcost w) = Some wk /\
    wps w' = upd (wps w) p ps /\
    wcon w' = wc /\ wcost w' = wk /\ ncon w' = ncon w /\ ncost w' = ncost w /\ hcost w' = hcost w /\
    (forall i, In i (spCost (ctl w')) -> In i (spCost (ctl w))).
Proof.
  intro H. pose proof H as H0. apply solve_qp in H0 as [w1 [Eb [_ [_ [_ [_ [_ [W1 [W2 [W3 _]]]]]]]]]].
  destruct (solve_parts _ _ _ _ H) as [w1' [r [Eb' [_ [w4 [E4 ->]]]]]]. rewrite Eb in Eb'. injection Eb' as <-.
  apply build_parts in Eb as [p [ps [wc [wk [q [Ep [Eu [_ [_ [Ec [Ek [Eq E1]]]]]]]]]]]]. cbv zeta in E1.
  exists p, ps, wc, wk. do 4 (split; [assumption|]). rewrite W1, W2, W3. rewrite E1. cbn [wps wcon wcost]. do 3 (split; [reflexivity|]).
  cbv zeta in E4.
  match type of E4 with context [checkDelete ?v] => set (w2 := v) in E4 end.
  assert (exists x u, w4 = checkDelete w2 \/ w4 = set_ctl (checkDelete w2) (set_result (ctl (checkDelete w2)) x u)) as [x [u Hw]].
  { destruct b; [apply updateResults_form in E4 as [x [u ->]]; eauto|injection E4 as <-; exists r, r; auto]. }
  destruct (checkDelete_objs w2) as [C1 [C2 [C3 [C4 [C5 [C6 C7]]]]]].
  assert (F : ncon w2 = ncon w /\ ncost w2 = ncost w /\ hcost w2 = hcost w /\ spCost (ctl w2) = spCost (ctl w)).
  { unfold w2. rewrite E1. cbn. auto. }
  destruct F as [F1 [F2 [F3 F4]]]. rewrite F4 in C7.
  destruct Hw as [-> | ->]; cbn [set_ctl ncon ncost hcost ctl set_times set_result spCost]; (split; [congruence|split; [congruence|split; [congruence|exact C7]]]).
Qed.

Lemma step_objs w o w' : stepped w o w' ->
  (forall i, con_change w o i (wcon w' i)) /\ (forall i, cost_change w o i (wcost w' i)) /\
  ncon w' = ncon w + length (new_cons [o]) /\ ncost w' = ncost w + length (new_costs [o]) /\
  (forall i, In i (spCost (ctl w')) -> In i (spCost (ctl w)) \/
     exists j p, o = OAddCost j i /\ m_ps (ctl w) = Some p /\ initializeCost j (wps w p) (wcost w i) = Ok (wcost w' i)).
Proof.
  intro H. unfold stepped in H.
  assert (TRIV : (forall k v, o <> OWeights k v) -> (forall k x, o <> OWeight k x) -> (forall j k, o <> OAddCost j k) ->
    wcon w' = wcon w -> wcost w' = wcost w -> ncon w' = ncon w -> ncost w' = ncost w -> new_cons [o] = [] -> new_costs [o] = [] ->
    (forall i, In i (spCost (ctl w')) -> In i (spCost (ctl w))) ->
    (forall i, con_change w o i (wcon w' i)) /\ (forall i, cost_change w o i (wcost w' i)) /\
    ncon w' = ncon w + length (new_cons [o]) /\ ncost w' = ncost w + length (new_costs [o]) /\
    (forall i, In i (spCost (ctl w')) -> In i (spCost (ctl w)) \/
       exists j p, o = OAddCost j i /\ m_ps (ctl w) = Some p /\ initializeCost j (wps w p) (wcost w i) = Ok (wcost w' i))).
  { intros T1 T2 T3 E1 E2 E3 E4 E5 E6 E7. rewrite E1, E2, E3, E4, E5, E6. cbn [length]. split; [|split; [|split; [lia|split; [lia|auto]]]].
    - intro i. apply cc_same. reflexivity.
    - intro i. apply kc_same; [reflexivity|intros; eapply T1; eauto|intros; eapply T2; eauto|intros; eapply T3; eauto]. }
  unfold step in H.
  destruct o; unfold with_con, with_cost in H;
    try (apply TRIV; try discriminate;
         repeat match type of H with context [if ?b then _ else _] => destruct b end;
         destruct H as [H|[? H]]; try discriminate H; injection H; intros; subst; reflexivity || assumption).
  - (* preview system *) apply TRIV; try discriminate;
      (destruct (ps_step (wps w p) o); cbn [out_map] in H; destruct H as [H|[? H]]; try discriminate H; injection H; intros; subst; reflexivity || assumption).
  - (* new constraint *) destruct H as [H|[? H]]; [|discriminate H]. injection H as <-. cbn. split; [|split; [|split; [lia|split; [lia|auto]]]].
    + intro i. unfold upd. destruct (Nat.eqb_spec i (ncon w)); [eapply cc_new; eauto|apply cc_same; reflexivity].
    + intro i. apply kc_same; [reflexivity|discriminate..].
  - (* span *) destruct (0 <? hcon w i) eqn:Eh;
      [|apply TRIV; try discriminate; destruct H as [H|[? H]]; try discriminate H; injection H; intros; subst; reflexivity || assumption].
    assert (exists c, (c_autoSpan j (wcon w i) = Ok c \/ exists e, c_autoSpan j (wcon w i) = Throw e c) /\ w' = set_con w i c) as [c [Hc ->]].
    { destruct (c_autoSpan j (wcon w i)) as [c|e c|]; cbn [out_map] in H; destruct H as [H|[? H]]; try discriminate H; injection H; intros; subst; eauto. }
    cbn. split; [|split; [|split; [lia|split; [lia|auto]]]].
    + intro k. unfold upd. destruct (Nat.eqb_spec k i) as [->|]; [eapply cc_span; eauto|apply cc_same; reflexivity].
    + intro k. apply kc_same; [reflexivity|discriminate..].
  - (* new cost *) destruct H as [H|[? H]]; [|discriminate H]. injection H as <-. cbn. split; [|split; [|split; [lia|split; [lia|auto]]]].
    + intro i. apply cc_same. reflexivity.
    + intro i. unfold upd. destruct (Nat.eqb_spec i (ncost w)); [eapply kc_new; eauto|apply kc_same; [reflexivity|discriminate..]].
  - (* span cost *) destruct (0 <? hcost w i) eqn:Eh;
      [|apply TRIV; try discriminate; destruct H as [H|[? H]]; try discriminate H; injection H; intros; subst; reflexivity || assumption].
    assert (exists c, (k_autoSpan j (wcost w i) = Ok c \/ exists e, k_autoSpan j (wcost w i) = Throw e c) /\ w' = set_cost w i c) as [c [Hc ->]].
    { destruct (k_autoSpan j (wcost w i)) as [c|e c|]; cbn [out_map] in H; destruct H as [H|[? H]]; try discriminate H; injection H; intros; subst; eauto. }
    cbn. split; [|split; [|split; [lia|split; [lia|auto]]]].
    + intro k. apply cc_same. reflexivity.
    + intro k. unfold upd. destruct (Nat.eqb_spec k i) as [->|]; [eapply kc_span; eauto|apply kc_same; [reflexivity|discriminate..]].
  - (* weights *)
    destruct (Nat.ltb_spec 0 (hcost w i)) as [Eh|Eh].
    2:{ destruct H as [H|[? H]]; [|discriminate H]. injection H as <-. cbn. split; [|split; [|split; [lia|split; [lia|auto]]]].
        - intro; apply cc_same; reflexivity.
        - intro k; apply kc_same; [reflexivity| |discriminate|discriminate]. intros a b X. injection X as <- <-. intros <- Y. lia. }
    assert (exists c, (k_weights (wcost w i) v = Ok c \/ exists e, k_weights (wcost w i) v = Throw e c) /\ w' = set_cost w i c) as [c [Hc ->]].
    { destruct (k_weights (wcost w i) v) as [c|e c|]; cbn [out_map] in H; destruct H as [H|[? H]]; try discriminate H; injection H; intros; subst; eauto. }
    cbn. split; [|split; [|split; [lia|split; [lia|auto]]]].
    + intro k. apply cc_same. reflexivity.
    + intro k. unfold upd. destruct (Nat.eqb_spec k i) as [->|]; [eapply kc_weights; eauto|].
      apply kc_same; [reflexivity| |discriminate|discriminate]. intros a b X. injection X as <- <-. intros <-. congruence.
  - (* weight *)
    destruct (Nat.ltb_spec 0 (hcost w i)) as [Eh|Eh].
    2:{ destruct H as [H|[? H]]; [|discriminate H]. injection H as <-. cbn. split; [|split; [|split; [lia|split; [lia|auto]]]].
        - intro; apply cc_same; reflexivity.
        - intro k; apply kc_same; [reflexivity|discriminate| |discriminate]. intros a b X. injection X as <- <-. intros <- Y. lia. }
    destruct H as [H|[? H]]; [|discriminate H]. injection H as <-. cbn. split; [|split; [|split; [lia|split; [lia|auto]]]].
    + intro k. apply cc_same. reflexivity.
    + intro k. unfold upd. destruct (Nat.eqb_spec k i) as [->|]; [eapply kc_weight; eauto|].
      apply kc_same; [reflexivity|discriminate| |discriminate]. intros a b X. injection X as <- <-. intros <-. congruence.
  - (* construct *)
    destruct H as [H|[? H]]; unfold of_opt in H; destruct (construct j k r w) as [v|] eqn:E; try discriminate H. injection H as <-.
    apply construct_objs in E as [E1 [E2 [E3 [E4 [_ [E5 _]]]]]]. apply TRIV; try discriminate; try assumption; try reflexivity.
    rewrite E5. intros i [].
  - destruct H as [H|[? H]]; unfold of_opt in H; destruct (initializeController j w p) as [v|] eqn:E; try discriminate H. injection H as <-.
    apply initController_objs in E as [E1 [E2 [E3 [E4 [_ [E5 _]]]]]]. apply TRIV; try discriminate; try assumption; try reflexivity.
    rewrite E5. auto.
  - (* addCost *)
    destruct (Nat.ltb_spec 0 (hcost w i)) as [Eh|Eh].
    2:{ destruct H as [H|[? H]]; [|discriminate H]. injection H as <-. cbn. split; [|split; [|split; [lia|split; [lia|auto]]]].
        - intro; apply cc_same; reflexivity.
        - intro k; apply kc_same; [reflexivity|discriminate|discriminate|]. intros a X. injection X as _ <-. lia. }
    apply addCost_objs in H as [p [c [Ep [Hc [E1 [E2 [E3 [E4 _]]]]]]]]. rewrite E1, E2, E3, E4. cbn [new_cons new_costs flat_map app length].
    split; [|split; [|split; [lia|split; [lia|]]]].
    + intro; apply cc_same; reflexivity.
    + intro k. unfold upd. destruct (Nat.eqb_spec k i) as [->|]; [eapply kc_init; eauto; destruct Hc as [[Hc _]|[Hc _]]; auto|].
      apply kc_same; [reflexivity|discriminate|discriminate|]. intros a X. injection X as _ <-. congruence.
    + intros k Hk. destruct Hc as [[Hc E5]|[_ E5]]; rewrite E5 in Hk; [|auto]. apply in_app_iff in Hk as [Hk|[<-|[]]]; [auto|].
      right. exists j, p. split; [reflexivity|]. split; [exact Ep|]. unfold upd. rewrite Nat.eqb_refl. exact Hc.
  - (* addConstraint *)
    destruct (Nat.ltb_spec 0 (hcon w i)) as [Eh|Eh];
      [|apply TRIV; try discriminate; destruct H as [H|[? H]]; try discriminate H; injection H; intros; subst; reflexivity || assumption].
    apply addConstraint_objs in H as [p [c [Ep [Hc [E1 [E2 [E3 [E4 [_ E5]]]]]]]]]. rewrite E1, E2, E3, E4, E5. cbn [new_cons new_costs flat_map app length].
    split; [|split; [|split; [lia|split; [lia|auto]]]].
    + intro k. unfold upd. destruct (Nat.eqb_spec k i) as [->|]; [eapply cc_init; eauto|apply cc_same; reflexivity].
    + intro k. apply kc_same; [reflexivity|discriminate..].
  - (* removeCost *)
    apply TRIV; try discriminate; (destruct (0 <? hcost w i); destruct H as [H|[? H]]; try discriminate H; injection H as <-; try reflexivity; try (intros; assumption));
      unfold removeCost; destruct (erase_first i (spCost (ctl w))) eqn:E; cbn; auto.
    intros k Hk. clear - E Hk. revert l E Hk. generalize (spCost (ctl w)). induction l as [|x t IH]; intros l E Hk; cbn in E; [discriminate|].
    destruct (Nat.eqb x i); [injection E as <-; right; exact Hk|]. destruct (erase_first i t); [|discriminate]. injection E as <-.
    destruct Hk as [<-|Hk]; [left; reflexivity|right; eapply IH; eauto].
  - (* removeConstraint *)
    destruct (0 <? hcon w i); [|apply TRIV; try discriminate; destruct H as [H|[? H]]; try discriminate H; injection H; intros; subst; reflexivity || assumption].
    destruct H as [H|[? H]]; unfold of_opt in H; destruct (removeConstraint w i) as [v|] eqn:E; try discriminate H. injection H as <-.
    apply removeConstraint_objs in E as [E1 [E2 [E3 [E4 [_ E5]]]]]. apply TRIV; try discriminate; try assumption; try reflexivity. rewrite E5. auto.
  - apply TRIV; try discriminate; destruct H as [H|[? H]]; try discriminate H; injection H as <-; try reflexivity. intros i [].
  - destruct H as [H|[? H]]; unfold of_opt in H; destruct (clearConstraints w) as [v|] eqn:E; try discriminate H. injection H as <-.
    apply clearConstraints_objs in E as [E1 [E2 [E3 [E4 [_ E5]]]]]. apply TRIV; try discriminate; try assumption; try reflexivity. rewrite E5. auto.
  - (* solve *)
    destruct (solve e w) as [[b v]|] eqn:E; [|destruct H as [H|[? H]]; discriminate H].
    destruct H as [H|[? H]]; [|discriminate H]. injection H as <-.
    apply solve_objs in E as [p [ps [wc [wk [Ep [Eu [Ec [Ek [_ [E1 [E2 [E3 [E4 [_ E5]]]]]]]]]]]]]].
    rewrite E1, E2, E3, E4. cbn [new_cons new_costs flat_map app length]. split; [|split; [|split; [lia|split; [lia|auto]]]].
    + intro k. eapply cc_solve; eauto.
    + intro k. eapply kc_solve; eauto.
  - apply TRIV; try discriminate; destruct H as [H|[? H]]; try discriminate H; injection H as <-; try reflexivity; unfold resetX0Cost; destruct (m_is (ctl w)); cbn; auto.
  - apply TRIV; try discriminate; destruct H as [H|[? H]]; try discriminate H; injection H as <-; try reflexivity; unfold resetX0Bounds; destruct (m_is (ctl w)); cbn; auto.
Qed.

(** ** Induction on the history *)
Lemma follows_snoc n m N o : forall h w w', follows_protocol n m N w (h ++ [o]) -> run w h = Some w' ->
  follows_protocol n m N w h /\ legal n m N w' o.
Proof.
  induction h as [|x t IH]; intros w w' F R; cbn [app follows_protocol run] in *.
  - injection R as <-. tauto.
  - destruct F as [F1 F2]. destruct (step w x) as [v|y v|]; [| |discriminate]; destruct (IH v w' F2 R) as [A B]; auto.
Qed.
Lemma callable_snoc o : forall h w w', callable w (h ++ [o]) -> run w h = Some w' -> callable w h /\ callable_op w' o.
Proof.
  induction h as [|x t IH]; intros w w' F R; cbn [app callable run] in *.
  - injection R as <-. tauto.
  - destruct F as [F1 F2]. destruct (step w x) as [v|y v|]; [| |discriminate]; destruct (IH v w' F2 R) as [A B]; auto.
Qed.
Lemma reached_snoc h o w' : reached (h ++ [o]) w' -> exists w, reached h w /\ stepped w o w'.
Proof.
  unfold reached. rewrite run_app. destruct (run world0 h) as [w|]; [|discriminate]. cbn [obind run]. intro H. exists w. split; [reflexivity|].
  unfold stepped. destruct (step w o) as [v|x v|]; [| |discriminate]; injection H as <-; eauto.
Qed.

Section Trace.
Variables n m N : nat.
Hypothesis SF : sizes_fit n m N.
Let D := dps n m N.

Lemma protocol_ind (P : list op -> world -> Prop) :
  P [] world0 ->
  (forall h w o w', reached h w -> follows_protocol n m N world0 h -> pinv D w -> legal n m N w o -> stepped w o w' -> P h w -> P (h ++ [o]) w') ->
  forall h w, follows_protocol n m N world0 h -> reached h w -> P h w /\ pinv D w.
Proof using SF.
  intros P0 PS. induction h as [|o h IH] using rev_ind; intros w F R.
  - unfold reached in R. cbn in R. injection R as <-. split; [exact P0|apply world0_pinv].
  - destruct (reached_snoc _ _ _ R) as [v [Rv S]]. destruct (follows_snoc n m N o h world0 v F Rv) as [Fh L].
    destruct (IH v Fh Rv) as [Pv Iv]. split; [eapply PS; eassumption|].
    pose proof (step_ok n m N SF v o Iv L) as H. destruct S as [S|[x S]]; rewrite S in H; exact H.
Qed.

(** ** The data of a constraint *)
Lemma given_new d : c_given (new_con d) = d /\ lines_fresh (new_con d).
Proof. destruct d; (split; [reflexivity|]); intro; try discriminate; auto. Qed.
Lemma given_init j c c' : con_ok D c -> initializeConstraint j D c = Ok c' \/ (exists e, initializeConstraint j D c = Throw e c') ->
  c_given c' = c_given c /\ (lines_fresh c -> lines_fresh c').
Proof.
  intros O [E|[e E]]; [|apply init_throw in E; subst; auto].
  pose proof (init_keeps _ _ _ _ E) as K. unfold init_kept in K. destruct K as [K1 [K2 [K3 [K4 K]]]].
  assert (FF : ck c = KCtrl \/ ck c = KCtrlB -> fullSizeEntry c = false).
  { intro Q. destruct O as [V|V]; [apply V|]. exfalso. destruct V as [Sh _]. unfold c_shape in Sh. unfold initializeConstraint, ctrl_init, ctrlB_init in E.
    destruct Q as [Q|Q]; rewrite Q in *; [destruct Sh as [_ [HB _]]|destruct Sh as [HB _]]; rewrite HB in E; discriminate. }
  unfold c_given, lines_fresh. rewrite K1, K2, K3, K4. destruct (ck c) eqn:Q.
  - destruct K as [-> [-> _]]. split; [reflexivity|discriminate].
  - rewrite (FF (or_introl eq_refl)) in *. destruct K as [_ [-> [_ [Kd _]]]].
    destruct (Nat.eqb (cols (cG c)) (uDim D)); [destruct Kd as [-> ->]|destruct Kd as [-> [-> _]]]; (split; [reflexivity|discriminate]).
  - destruct K as [-> [-> [-> _]]]. split; [reflexivity|discriminate].
  - destruct K as [-> [-> _]]. split; [reflexivity|auto].
  - rewrite (FF (or_intror eq_refl)) in *. destruct K as [_ [-> [_ [Kd _]]]].
    destruct (Nat.eqb (vsize (clower c)) (uDim D)); [destruct Kd as [-> ->]|destruct Kd as [-> ->]]; (split; [reflexivity|discriminate]).
Qed.
Lemma given_same c c' : same_obj c c' -> c_given c' = c_given c /\ (lines_fresh c -> lines_fresh c').
Proof.
  intros [S K]. destruct S as [D1 [D2 [D3 [D4 [D5 [D6 [D7 [D8 [D9 [D10 [D11 D12]]]]]]]]]]].
  unfold c_given, lines_fresh. rewrite D1, D2, D4, D6, D7, D8, D9, D10, D11, D12. split; [|auto].
  destruct (ck c) eqn:Q; try reflexivity.
  - destruct (fullSizeEntry c) eqn:F; [|reflexivity]. rewrite (K eq_refl (or_introl eq_refl)). reflexivity.
  - destruct (fullSizeEntry c) eqn:F; [|reflexivity]. rewrite (K eq_refl (or_intror eq_refl)). reflexivity.
Qed.

(** ** Updating a list of registered constraints *)
Lemma rows_as_obj ps c c1 c2 : same_obj c c1 -> rows_as ps c1 c2 -> rows_as ps c c2.
Proof.
  intros O [M1 M2]. assert (Ck : ck c1 = ck c) by apply O. assert (Cn : nrConstr c1 = nrConstr c) by apply O. split.
  - intros NB r Hr. unfold crow_ok. eapply trow_lin_ext; [| |apply M1; congruence].
    + intros x U. apply same_obj_lin. exact O.
    + apply same_obj_rhs. exact O.
  - intros NB i Hi. destruct (M2 (eq_trans Ck NB) i Hi) as [-> ->]. apply same_obj_lo; assumption.
Qed.
(** the system may be out of date with its model (public fields): then some other model is predicted *)
Lemma update_cons_same ps : ps_live D ps -> isUpdated ps = true -> forall l wc wc', update_cons ps l wc = Some wc' ->
  (forall i, In i l -> c_inited D (wc i)) -> forall i, same_obj (wc i) (wc' i).
Proof using SF.
  intros L U. unfold update_cons. induction l as [|x t IH]; intros wc wc' E H i; cbn [for_list] in E.
  - injection E as <-. apply same_obj_refl.
  - destruct (live_update D ps (wc x) L U (H x (or_introl eq_refl))) as [c [Ec [Hc _]]]. rewrite Ec in E. cbn [obind] in E.
    destruct (live_ready _ _ L U) as [A [B [d R]]].
    assert (E6 : same_dims D (ps_setModel ps A B d)) by (apply same_dims_sym; apply L).
    destruct (c_update_ok _ R (wc x) (c_shape_dims _ _ _ E6 (proj1 (H x (or_introl eq_refl))))) as [c' [Ec' [SD [_ [K _]]]]].
    rewrite c_update_model, Ec in Ec'. injection Ec' as <-.
    eapply same_obj_trans; [|apply (IH _ _ E)].
    + unfold upd. destruct (Nat.eqb_spec i x) as [->|]; [split; assumption|apply same_obj_refl].
    + intros k Hk. unfold upd. destruct (Nat.eqb_spec k x) as [->|]; [exact Hc|apply H; right; exact Hk].
Qed.
Lemma update_cons_rows ps : ready ps -> same_dims ps D -> forall l wc wc', update_cons ps l wc = Some wc' ->
  (forall i, In i l -> c_shape D (wc i)) -> forall i, In i l -> rows_as ps (wc i) (wc' i).
Proof using SF.
  intros R SD. unfold update_cons.
  assert (G : forall l wc wc', for_list l (fun i wc => c <- c_update ps (wc i) ;; Some (upd wc i c)) wc = Some wc' ->
    (forall i, In i l -> c_shape D (wc i)) -> forall i c0, same_obj c0 (wc i) -> (rows_as ps c0 (wc i) \/ In i l) -> rows_as ps c0 (wc' i)).
  { induction l as [|x t IH]; intros wc wc' E H i c0 S Hi; cbn [for_list] in E.
    - injection E as <-. destruct Hi as [Hi|[]]. exact Hi.
    - destruct (c_update_ok ps R (wc x)) as [c [Ec [Sd [Sh [K M]]]]].
      { apply (c_shape_dims D); [apply same_dims_sym, SD|apply H; left; reflexivity]. }
      rewrite Ec in E. cbn [obind] in E. apply (IH _ _ E).
      + intros k Hk. unfold upd. destruct (Nat.eqb_spec k x) as [->|]; [apply (c_shape_dims ps); assumption|apply H; right; exact Hk].
      + unfold upd. destruct (Nat.eqb_spec i x) as [->|]; [|exact S]. eapply same_obj_trans; [exact S|split; assumption].
      + unfold upd. destruct (Nat.eqb_spec i x) as [->|Nx].
        * left. eapply rows_as_obj; [exact S|exact M].
        * destruct Hi as [Hi|[Hi|Hi]]; [auto|congruence|auto]. }
  intros l wc wc' E H i Hi. eapply G; [exact E|exact H|apply same_obj_refl|right; exact Hi].
Qed.

Lemma new_cons_app h o : new_cons (h ++ [o]) = new_cons h ++ new_cons [o].
Proof. unfold new_cons. rewrite flat_map_app. reflexivity. Qed.
Lemma new_costs_app h o : new_costs (h ++ [o]) = new_costs h ++ new_costs [o].
Proof. unfold new_costs. rewrite flat_map_app. reflexivity. Qed.

(** the data of every constraint ever built *)
Definition con_inv (h : list op) (w : world) : Prop :=
  length (new_cons h) = ncon w /\
  (callable world0 h -> forall i d, con_data_of h i = Some d ->
     con_alike (c_given (wcon w i)) d /\ (even_bounds h i -> lines_fresh (wcon w i))).

Lemma spans_before : forall h w i, reached h w -> callable world0 h -> ncon w <= i -> existsb (spans_con i) h = false.
Proof.
  induction h as [|o h IH] using rev_ind; intros w i R C Hi; [reflexivity|].
  destruct (reached_snoc _ _ _ R) as [v [Rv S]]. destruct (callable_snoc o h world0 v C Rv) as [Ch Co].
  assert (Hv : ncon v <= i) by (destruct (step_objs _ _ _ S) as [_ [_ [HN _]]]; lia).
  rewrite existsb_app, (IH v i Rv Ch Hv). cbn [existsb orb]. rewrite orb_false_r. pose proof (reached_inv _ _ Rv) as RI.
  assert (Z : hcon v i = 0) by (apply (ri_hcon _ RI); exact Hv).
  destruct o; cbn [spans_con callable_op] in *; try reflexivity; destruct (Nat.eqb_spec i0 i); try reflexivity; subst; lia.
Qed.
Lemma con_data_snoc h o i d : con_data_of (h ++ [o]) i = Some d ->
  (exists d0, o = ONewCon d0 /\ i = length (new_cons h) /\ d = if existsb (spans_con i) h then spanned_con d0 else d0) \/
  (i < length (new_cons h) /\ exists e, con_data_of h i = Some e /\ ((spans_con i o = false /\ d = e) \/ (exists j, o = OSpanCon j i /\ d = spanned_con e))).
Proof.
  unfold con_data_of. rewrite new_cons_app, existsb_app. cbn [existsb]. rewrite orb_false_r. intro H.
  destruct (Nat.lt_ge_cases i (length (new_cons h))) as [Hlt|Hge].
  - rewrite nth_error_app1 in H by exact Hlt. destruct (nth_error (new_cons h) i) as [d0|]; [|discriminate H]. injection H as <-.
    right. split; [exact Hlt|]. eexists. split; [reflexivity|]. destruct (spans_con i o) eqn:S.
    + right. destruct o; try discriminate S. cbn in S. apply Nat.eqb_eq in S. subst. exists j. split; [reflexivity|].
      rewrite orb_true_r. destruct (existsb _ h); [symmetry; apply spanned_con_twice|reflexivity].
    + left. rewrite orb_false_r. auto.
  - left. rewrite nth_error_app2 in H by exact Hge. destruct o; try (destruct (i - length (new_cons h)); discriminate H).
    cbn in H. destruct (i - length (new_cons h)) as [|k] eqn:Q; [|destruct k; discriminate H]. cbn in H. injection H as <-.
    exists d0. rewrite orb_false_r. split; [reflexivity|]. split; [lia|reflexivity].
Qed.
Lemma even_bounds_snoc h o i : i < length (new_cons h) -> even_bounds (h ++ [o]) i -> even_bounds h i.
Proof. intros L E lo up H. apply E. rewrite new_cons_app, nth_error_app1 by exact L. exact H. Qed.
Lemma even_bounds_data h i d : even_bounds h i -> con_data_of h i = Some d -> (exists lo up, d = DTrajB lo up) -> even_con d.
Proof.
  unfold con_data_of. intros E H [lo [up Q]]. destruct (nth_error (new_cons h) i) as [d0|] eqn:X; [|discriminate H]. injection H as <-.
  destruct (existsb _ h).
  - assert (exists l u, d0 = DTrajB l u) as [l [u ->]].
    { destruct d0; cbn [spanned_con] in Q; cbv zeta in Q;
        repeat match type of Q with context [match ?x with _ => _ end] => destruct x end; try discriminate Q; eauto. }
    assert (Ev : even_con (DTrajB l u)) by exact (E _ _ X). rewrite (even_con_id _ Ev). exact Ev.
  - subst d0. exact (E lo up X).
Qed.
Lemma given_kind c d lo up : con_alike (c_given c) d -> d = DTrajB lo up -> ck c = KTrajB.
Proof. unfold c_given. intros H ->. destruct (ck c); try (destruct (fullSizeEntry c)); cbn in H; try tauto. Qed.

Definition con_data_inv (h : list op) (w : world) : Prop := forall i d, con_data_of h i = Some d ->
  con_alike (c_given (wcon w i)) d /\ (even_bounds h i -> lines_fresh (wcon w i)).
Lemma con_inv_step h w o w' : pinv D w -> legal n m N w o -> callable_op w o -> stepped w o w' ->
  length (new_cons h) = ncon w -> (forall i, ncon w <= i -> existsb (spans_con i) h = false) ->
  con_data_inv h w -> con_data_inv (h ++ [o]) w'.
Proof using SF.
  intros P L Co S IL SB IH. destruct (step_objs _ _ _ S) as [HC [_ [HN _]]]. rewrite <- IL in HN.
    intros i d Hd.
    destruct (con_data_snoc _ _ _ _ Hd) as [[d0 [-> [Ei Ed]]]|[Lt [e [He Ho]]]].
    { rewrite (SB i) in Ed by lia. subst d.
      destruct S as [S|[x S]]; cbn [step] in S; [|discriminate S]. injection S as <-. cbn [wcon].
      replace (upd (wcon w) (ncon w) (new_con d0) i) with (new_con d0) by (rewrite Ei, IL; unfold upd; rewrite Nat.eqb_refl; reflexivity).
      destruct (given_new d0) as [G1 G2]. rewrite G1. split; [apply con_alike_refl|intros _; exact G2]. }
    destruct (IH i e He) as [A1 A2].
    destruct Ho as [[No ->]|[j [-> ->]]].
    + assert (KEEP : c_given (wcon w' i) = c_given (wcon w i) /\ (lines_fresh (wcon w i) -> lines_fresh (wcon w' i))).
      { destruct (HC i) as [E|d0 -> E1 E2|j -> _|j p -> Ep Hi|e0 p ps wc -> Ep Eu Ec E].
        - rewrite E. auto.
        - exfalso. lia.
        - exfalso. cbn in No. rewrite Nat.eqb_refl in No. discriminate No.
        - destruct (pi_m _ _ P p Ep) as [Np _]. destruct (pi_ps _ _ P p Np) as [SD _]. rewrite (init_dims j _ _ _ SD) in Hi.
          exact (given_init j _ _ (pi_con _ _ P i) Hi).
        - destruct (pi_m _ _ P p Ep) as [Np _]. destruct (ensure_live D _ (pi_ps _ _ P p Np)) as [ps' [Eu' [Lp [_ Up]]]].
          rewrite Eu in Eu'. injection Eu' as <-. pose proof (update_cons_same ps Lp Up _ _ _ Ec (pi_rcon _ _ P) i) as SO.
          rewrite E. exact (given_same _ _ SO). }
      destruct KEEP as [G1 G2]. rewrite G1. split; [exact A1|]. intro Ev. apply G2, A2. exact (even_bounds_snoc _ _ _ Lt Ev).
    + cbn [callable_op] in Co. cbn [legal] in L.
      assert (exists c', (c_autoSpan j (wcon w i) = Ok c' \/ exists e0, c_autoSpan j (wcon w i) = Throw e0 c') /\ wcon w' i = c') as [c' [Hc ->]].
      { unfold stepped in S. cbn [step] in S. unfold with_con in S. rewrite (proj2 (Nat.ltb_lt _ _) Co) in S.
        destruct (c_autoSpan j (wcon w i)) as [c'|e0 c'|]; cbn [out_map] in S; destruct S as [S|[? S]]; try discriminate S;
          injection S; intros; subst; exists c'; (split; [eauto|cbn [set_con wcon]; unfold upd; rewrite Nat.eqb_refl; reflexivity]). }
      assert (SAME : even_con (c_given (wcon w i)) -> c' = wcon w i ->
        con_alike (c_given c') (spanned_con e) /\ (even_bounds (h ++ [OSpanCon j i]) i -> lines_fresh c')).
      { intros Ev ->. rewrite (even_con_id e) by (eapply even_con_alike; [exact A1|exact Ev]). split; [exact A1|].
        intro Eb. apply A2. exact (even_bounds_snoc _ _ _ Lt Eb). }
      destruct (pi_con _ _ P i) as [V|V].
      2:{ assert (Sp : c_spanned (wcon w i)) by (destruct V as [_ [_ [Sp _]]]; exact Sp). rewrite (spanned_span j _ Sp) in Hc.
          apply SAME; [exact (spanned_even _ _ V)|]. destruct Hc as [Hc|[? Hc]]; [injection Hc as <-; reflexivity|discriminate Hc]. }
      destruct L as [NE|Hin].
      2:{ pose proof (pi_rcon _ _ P i Hin) as V'. assert (Sp : c_spanned (wcon w i)) by (destruct V' as [_ [_ [Sp _]]]; exact Sp). rewrite (spanned_span j _ Sp) in Hc.
          apply SAME; [exact (spanned_even _ _ V')|]. destruct Hc as [Hc|[? Hc]]; [injection Hc as <-; reflexivity|discriminate Hc]. }
      destruct (span_given j _ _ V NE Hc) as [G1 G2].
      split; [eapply con_alike_trans; [exact G1|apply spanned_con_cong; exact A1]|]. intro Eb.
      destruct (Bool.bool_dec (match ck (wcon w i) with KTrajB => true | _ => false end) true) as [KB|KB].
      * assert (KB' : ck (wcon w i) = KTrajB) by (destruct (ck (wcon w i)); try discriminate KB; reflexivity).
        assert (Ev : even_con (c_given (wcon w i))).
        { apply (even_con_alike e); [apply con_alike_sym; exact A1|]. apply (even_bounds_data h i); [exact (even_bounds_snoc _ _ _ Lt Eb)|exact He|].
          unfold c_given in A1. rewrite KB' in A1. destruct e; cbn in A1; try tauto. eauto. }
        apply SAME; [exact Ev| |exact Eb]. assert (Sp : c_spanned (wcon w i)) by (unfold c_spanned; unfold c_given in Ev; rewrite KB' in *; exact Ev).
        rewrite (spanned_span j _ Sp) in Hc. destruct Hc as [Hc|[? Hc]]; [injection Hc as <-; reflexivity|discriminate Hc].
      * apply G2. intro X. apply KB. rewrite X. reflexivity.
Qed.

Lemma con_inv_holds h w : follows_protocol n m N world0 h -> reached h w -> con_inv h w.
Proof using SF.
  intros F R. refine (proj1 (protocol_ind con_inv _ _ h w F R)); clear h w F R.
  - split; [reflexivity|]. intros _ i d H. unfold con_data_of in H. destruct i; discriminate H.
  - intros h w o w' R F P L S [IL IH]. destruct (step_objs _ _ _ S) as [_ [_ [HN _]]].
    split; [rewrite new_cons_app, app_length, HN, IL; reflexivity|].
    intro C. destruct (callable_snoc o h world0 w C R) as [Ch Co].
    apply (con_inv_step h w o w' P L Co S IL); [|exact (IH Ch)]. intros i Hi. exact (spans_before h w i R Ch Hi).
Qed.

(** ** The data, the weights and the results of a cost *)
Lemma k_given_eq c c' : kk c' = kk c -> kM c' = kM c -> kN c' = kN c -> kp c' = kp c -> k_given c' = k_given c.
Proof. unfold k_given. intros -> -> -> ->. reflexivity. Qed.
Lemma given_newC d : k_given (new_cost d) = d /\ kw (new_cost d) = vconst (cost_rows d) 1%Qc.
Proof. destruct d; split; reflexivity. Qed.
Lemma init_keepsC j c c' : initializeCost j D c = Ok c' \/ (exists e, initializeCost j D c = Throw e c') ->
  k_given c' = k_given c /\ kw c' = kw c.
Proof using.
  intro H. cut (kk c' = kk c /\ kM c' = kM c /\ kN c' = kN c /\ kp c' = kp c /\ kw c' = kw c).
  { intros [A [B [C [E F]]]]. split; [apply k_given_eq; assumption|assumption]. }
  unfold initializeCost, trajC_init, targetC_init, ctrlC_init, mixedC_init in H. cbv zeta in H.
  destruct (kk c) eqn:Q; destruct H as [H|[e H]]; break_match H; injection H; intros; subst c'; cbn; auto 10.
Qed.
Lemma init_zero j c c' : initializeCost j D c = Ok c' -> k_zero D c'.
Proof using.
  intro H. unfold initializeCost, trajC_init, targetC_init, ctrlC_init, mixedC_init in H. cbv zeta in H.
  destruct (kk c) eqn:Q; break_match H; injection H as <-; unfold k_zero, k_acc; cbn; rewrite Q; intro A; try discriminate A; auto 10.
Qed.
Lemma veq_weights c v d i0 u : veq (kw c) u -> vsize v <> 0 ->
  forall c', k_weights c v = Ok c' \/ (exists e, k_weights c v = Throw e c') -> veq (kw c') (weights_after_call d i0 u (OWeights i0 v)).
Proof.
  intros [E1 E2] Nv c' H. cbn [weights_after_call]. rewrite Nat.eqb_refl. unfold weights_given. rewrite <- E1.
  destruct (C21_weights c v) as [W1 [W2 [W3 _]]].
  destruct (Nat.eq_dec (vsize v) (vsize (kw c))) as [Eq|Ne].
  - rewrite (W1 Eq) in H. assert (c' = set_w c v) by (destruct H as [H|[? H]]; [injection H as <-; reflexivity|discriminate H]). subst c'.
    rewrite <- Eq, Nat.mod_same by exact Nv. cbn. split; [reflexivity|]. cbn. intros i Hi. rewrite Nat.mod_small by exact Hi. reflexivity.
  - destruct (Nat.eqb_spec (vsize (kw c) mod vsize v) 0) as [M|M].
    + destruct (W2 Ne Nv) as [x [Ex [Sx Gx]]]; [apply Nat.mod_divide; assumption|]. rewrite Ex in H.
      assert (c' = set_w c x) by (destruct H as [H|[? H]]; [injection H as <-; reflexivity|discriminate H]). subst c'.
      split; cbn; [exact Sx|]. intros i Hi. apply Gx. lia.
    + rewrite W3 in H; [|exact Nv|intro Q; apply M; apply Nat.mod_divide; assumption].
      assert (c' = c) by (destruct H as [H|[? H]]; [discriminate H|injection H as _ <-; reflexivity]). subst c'. split; assumption.
Qed.

(** one update *)
Lemma live_update_same ps c c' : ps_live D ps -> isUpdated ps = true -> k_inited D c -> k_update ps c = Some c' ->
  k_same c c' /\ k_inited D c'.
Proof using.
  intros L U [Sh En] E. destruct (live_ready _ _ L U) as [A [B [d R]]].
  assert (SD : same_dims D (ps_setModel ps A B d)) by (apply same_dims_sym; apply L).
  destruct (k_update_ok _ R c (k_shape_dims _ _ _ SD Sh)) as [c1 [E1 [K1 [S1 _]]]]. rewrite k_update_model, E in E1. injection E1 as <-.
  split; [exact K1|]. split; [apply (k_shape_dims (ps_setModel ps A B d)); [apply same_dims_sym|]; assumption|].
  destruct K1 as [K1 [K2 [K3 [K4 [K5 K6]]]]]. unfold k_entry in *. rewrite K1, K2, K3, K4. exact En.
Qed.
Lemma k_same_trans a b c : k_same a b -> k_same b c -> k_same a c.
Proof. unfold k_same. intros [A [B [C [E [F G]]]]] [A' [B' [C' [E' [F' G']]]]]. repeat split; congruence. Qed.
Lemma k_same_refl a : k_same a a. Proof. repeat split. Qed.
Lemma update_costs_same ps : ps_live D ps -> isUpdated ps = true -> forall l wk wk', update_costs ps l wk = Some wk' ->
  (forall i, In i l -> k_inited D (wk i)) -> forall i, k_same (wk i) (wk' i).
Proof using.
  intros L U. unfold update_costs. induction l as [|x t IH]; intros wk wk' E H i; cbn [for_list] in E.
  - injection E as <-. apply k_same_refl.
  - destruct (k_update ps (wk x)) as [c|] eqn:Ec; [|discriminate]. cbn [obind] in E.
    destruct (live_update_same ps _ _ L U (H x (or_introl eq_refl)) Ec) as [Sa Ic].
    eapply k_same_trans; [|apply (IH _ _ E)].
    + unfold upd. destruct (Nat.eqb_spec i x) as [->|]; [exact Sa|apply k_same_refl].
    + intros k Hk. unfold upd. destruct (Nat.eqb_spec k x) as [->|]; [exact Ic|apply H; right; exact Hk].
Qed.

(** the data and the weights of every cost ever built *)
Definition cost_inv (h : list op) (w : world) : Prop :=
  length (new_costs h) = ncost w /\
  (callable world0 h -> forall i d, cost_data_of h i = Some d ->
    cost_alike (k_given (wcost w i)) d /\ veq (kw (wcost w i)) (weights_of h i)).

Lemma weights_after_snoc d h o i : weights_after d (h ++ [o]) i = weights_after_call d i (weights_after d h i) o.
Proof. unfold weights_after. rewrite fold_left_app. reflexivity. Qed.
(** no call on an object before it is built *)
Lemma weights_before d : forall h w i, reached h w -> callable world0 h -> ncost w <= i ->
  weights_after d h i = vconst (cost_rows d) 1%Qc /\ existsb (spans_cost i) h = false.
Proof.
  induction h as [|o h IH] using rev_ind; intros w i R C Hi; [split; reflexivity|].
  destruct (reached_snoc _ _ _ R) as [v [Rv S]]. destruct (callable_snoc o h world0 v C Rv) as [Ch Co].
  assert (Hv : ncost v <= i) by (destruct (step_objs _ _ _ S) as [_ [_ [_ [HN _]]]]; lia).
  destruct (IH v i Rv Ch Hv) as [I1 I2].
  rewrite weights_after_snoc, existsb_app, I1, I2. cbn [existsb orb]. rewrite orb_false_r. pose proof (reached_inv _ _ Rv) as RI.
  assert (Z : hcost v i = 0) by (apply (ri_hcost _ RI); exact Hv).
  destruct o; cbn [weights_after_call spans_cost callable_op] in *; auto; destruct (Nat.eqb_spec i0 i); auto; subst; lia.
Qed.
Lemma cost_data_snoc h o i d : cost_data_of (h ++ [o]) i = Some d ->
  (exists d0, o = ONewCost d0 /\ i = length (new_costs h) /\ (d = if existsb (spans_cost i) h then spanned_cost d0 else d0) /\
     weights_of (h ++ [o]) i = weights_after d0 h i) \/
  (i < length (new_costs h) /\ exists d0 e, nth_error (new_costs h) i = Some d0 /\ cost_data_of h i = Some e /\
     weights_of (h ++ [o]) i = weights_after_call d0 i (weights_of h i) o /\
     cost_rows (spanned_cost d0) = cost_rows (spanned_cost e) /\
     ((spans_cost i o = false /\ d = e) \/ (exists j, o = OSpanCost j i /\ d = spanned_cost e))).
Proof.
  unfold cost_data_of, weights_of. rewrite new_costs_app, existsb_app. cbn [existsb]. rewrite orb_false_r. intro H.
  destruct (Nat.lt_ge_cases i (length (new_costs h))) as [Hlt|Hge].
  - rewrite nth_error_app1 in * by exact Hlt. destruct (nth_error (new_costs h) i) as [d0|]; [|discriminate H]. injection H as <-.
    right. split; [exact Hlt|]. exists d0. eexists. split; [reflexivity|]. split; [reflexivity|]. split; [apply weights_after_snoc|].
    split; [destruct (existsb (spans_cost i) h); [rewrite spanned_cost_twice|]; reflexivity|]. destruct (spans_cost i o) eqn:S.
    + right. destruct o; try discriminate S. cbn in S. apply Nat.eqb_eq in S. subst. exists j. split; [reflexivity|].
      rewrite orb_true_r. destruct (existsb _ h); [symmetry; apply spanned_cost_twice|reflexivity].
    + left. rewrite orb_false_r. auto.
  - left. rewrite nth_error_app2 in * by exact Hge. destruct o; try (destruct (i - length (new_costs h)); discriminate H).
    cbn in H |- *. destruct (i - length (new_costs h)) as [|k] eqn:Q; [|destruct k; discriminate H]. cbn in H |- *. injection H as <-.
    exists d0. rewrite orb_false_r. split; [reflexivity|]. split; [lia|]. split; [reflexivity|]. rewrite weights_after_snoc. reflexivity.
Qed.

Definition cost_data_inv (h : list op) (w : world) : Prop := forall i d, cost_data_of h i = Some d ->
  cost_alike (k_given (wcost w i)) d /\ veq (kw (wcost w i)) (weights_of h i).
Lemma cost_inv_step h w o w' : pinv D w -> legal n m N w o -> callable_op w o -> stepped w o w' ->
  length (new_costs h) = ncost w ->
  (forall d i, ncost w <= i -> weights_after d h i = vconst (cost_rows d) 1%Qc /\ existsb (spans_cost i) h = false) ->
  cost_data_inv h w -> cost_data_inv (h ++ [o]) w'.
Proof using SF.
  intros P L Co S IL WB IH. destruct (step_objs _ _ _ S) as [_ [HC [_ [HN _]]]]. rewrite <- IL in HN.
    intros i d Hd.
    destruct (cost_data_snoc _ _ _ _ Hd) as [[d0 [-> [Ei [Ed Ew]]]]|[Lt [d0 [e [Hd0 [He [Ew [Er Ho]]]]]]]]; rewrite Ew.
    { destruct (WB d0 i ltac:(lia)) as [B1 B2]. rewrite B2 in Ed. rewrite B1. subst d.
      destruct S as [S|[x S]]; cbn [step] in S; [|discriminate S]. injection S as <-. cbn [wcost].
      replace (upd (wcost w) (ncost w) (new_cost d0) i) with (new_cost d0) by (rewrite Ei, IL; unfold upd; rewrite Nat.eqb_refl; reflexivity).
      destruct (given_newC d0) as [G1 G2]. rewrite G1, G2. split; [apply cost_alike_refl|apply veq_refl]. }
    destruct (IH i e He) as [A1 A2].
    destruct Ho as [[No ->]|[j [-> ->]]].
    + destruct (HC i) as [E NW NX NA|d1 -> E1 E2|j -> _|v -> Hw|x -> Hw|j p -> Ep Hi|e0 p ps wk -> Ep Eu Ek E].
      * rewrite E. split; [exact A1|]. destruct o; cbn [weights_after_call]; try exact A2.
        -- cbn [spans_cost] in No. rewrite No. exact A2.
        -- destruct (Nat.eqb_spec i0 i) as [->|]; [exfalso; exact (NW _ _ eq_refl eq_refl Co)|exact A2].
        -- destruct (Nat.eqb_spec i0 i) as [->|]; [exfalso; exact (NX _ _ eq_refl eq_refl Co)|exact A2].
      * exfalso. lia.
      * exfalso. cbn in No. rewrite Nat.eqb_refl in No. discriminate No.
      * cbn [legal] in L. destruct (C21_only_weights_change (wcost w i) v (wcost w' i)) as [_ [K1 [K2 [K3 [K4 _]]]]].
        { eexists. split; [reflexivity|]. destruct Hw as [Hw|[e0 Hw]]; rewrite Hw; eauto. }
        split; [rewrite (k_given_eq (wcost w i)) by assumption; exact A1|].
        eapply veq_weights; [exact A2|exact L|exact Hw].
      * rewrite Hw. split; [exact A1|]. cbn [weights_after_call]. rewrite Nat.eqb_refl. cbn. rewrite (proj1 A2). apply veq_refl.
      * destruct (pi_m _ _ P p Ep) as [Np _]. destruct (pi_ps _ _ P p Np) as [SD _]. rewrite (initC_dims j _ _ _ SD) in Hi.
        destruct (init_keepsC j _ _ Hi) as [G1 G2]. rewrite G1, G2. split; [exact A1|exact A2].
      * destruct (pi_m _ _ P p Ep) as [Np _]. destruct (ensure_live D _ (pi_ps _ _ P p Np)) as [ps' [Eu' [Lp [_ Up]]]].
        rewrite Eu in Eu'. injection Eu' as <-. pose proof (update_costs_same ps Lp Up _ _ _ Ek (pi_rcost _ _ P) i) as [S1 [_ [S3 [S4 [S5 S6]]]]].
        rewrite E, (k_given_eq (wcost w i)), S6 by assumption. split; [exact A1|exact A2].
    + cbn [callable_op] in Co. cbn [legal] in L. cbn [weights_after_call]. rewrite Nat.eqb_refl, Er.
      assert (exists c', (k_autoSpan j (wcost w i) = Ok c' \/ exists e0, k_autoSpan j (wcost w i) = Throw e0 c') /\ wcost w' i = c') as [c' [Hc ->]].
      { unfold stepped in S. cbn [step] in S. unfold with_cost in S. rewrite (proj2 (Nat.ltb_lt _ _) Co) in S.
        destruct (k_autoSpan j (wcost w i)) as [c'|e0 c'|]; cbn [out_map] in S; destruct S as [S|[? S]]; try discriminate S;
          injection S; intros; subst; exists c'; (split; [eauto|cbn [set_cost wcost]; unfold upd; rewrite Nat.eqb_refl; reflexivity]). }
      assert (SAME : k_inited D (wcost w i) ->
        cost_alike (k_given c') (spanned_cost e) /\ veq (kw c') (copies (cost_rows (spanned_cost e)) (weights_of h i))).
      { intro V. destruct (inited_even _ _ V) as [Ev Sw]. rewrite (inited_span j D _ V) in Hc.
        assert (c' = wcost w i) by (destruct Hc as [Hc|[? Hc]]; [injection Hc as <-; reflexivity|discriminate Hc]). subst c'.
        rewrite (even_cost_id e) by (eapply even_cost_alike; [exact A1|exact Ev]). split; [exact A1|].
        eapply veq_trans; [exact A2|]. apply veq_sym, copies_same. rewrite <- (proj1 A2), Sw. apply cost_rows_alike. exact A1. }
      destruct (pi_cost _ _ P i) as [V|V]; [|apply SAME; exact V].
      destruct L as [NE|Hin]; [|apply SAME; exact (pi_rcost _ _ P i Hin)].
      destruct (spanC_given j _ _ V NE Hc) as [G1 G2].
      pose proof (spanned_cost_cong _ _ A1) as A3.
      split; [eapply cost_alike_trans; [exact G1|exact A3]|].
      rewrite <- (cost_rows_alike _ _ A3). eapply veq_trans; [exact G2|]. apply copies_cong; [|exact A2].
      pose proof (fresh_rows _ V) as Fw. intro Nz. rewrite Fw. clear - NE Nz. unfold cost_nonempty, k_given in *.
      destruct (kk (wcost w i)); cbn in *; try tauto; intros X; apply Nz; exact X.
Qed.

Lemma cost_inv_holds h w : follows_protocol n m N world0 h -> reached h w -> cost_inv h w.
Proof using SF.
  intros F R. refine (proj1 (protocol_ind cost_inv _ _ h w F R)); clear h w F R.
  - split; [reflexivity|]. intros _ i d H. unfold cost_data_of in H. destruct i; discriminate H.
  - intros h w o w' R F P L S [IL IH]. destruct (step_objs _ _ _ S) as [_ [_ [_ [HN _]]]].
    split; [rewrite new_costs_app, app_length, HN, IL; reflexivity|].
    intro C. destruct (callable_snoc o h world0 w C R) as [Ch Co].
    apply (cost_inv_step h w o w' P L Co S IL); [|exact (IH Ch)]. intros d i Hi. exact (weights_before d h w i R Ch Hi).
Qed.

(** a cost registered since the last solve starts from zero *)
Lemma added_snoc h o i : added_since_solve (h ++ [o]) i -> (forall e, o <> OSolve e) /\ ((exists j, o = OAddCost j i) \/ added_since_solve h i).
Proof.
  intros [h1 [j [h2 [E NS]]]]. destruct h2 as [|y t] using rev_ind.
  - apply app_inj_tail in E as [_ ->]. split; [discriminate|eauto].
  - clear IHt. change (h1 ++ OAddCost j i :: t ++ [y]) with (h1 ++ (OAddCost j i :: t) ++ [y]) in E. rewrite app_assoc in E.
    apply app_inj_tail in E as [-> ->]. split.
    + intros e ->. apply (NS e). apply in_app_iff. right. left. reflexivity.
    + right. exists h1, j, t. split; [reflexivity|]. intros e He. apply (NS e). apply in_app_iff. auto.
Qed.
Definition zero_inv (h : list op) (w : world) : Prop := forall i, added_since_solve h i -> In i (spCost (ctl w)) -> k_zero D (wcost w i).
Lemma zero_inv_step h w o w' : pinv D w -> callable_op w o -> stepped w o w' -> zero_inv h w -> zero_inv (h ++ [o]) w'.
Proof using SF.
  intros P Co S IH i Ad Hi. destruct (step_objs _ _ _ S) as [_ [HC [_ [_ HS]]]].
    destruct (added_snoc _ _ _ Ad) as [NoS Ad'].
    destruct (HS i Hi) as [Hi'|[j [p [-> [Ep Ei]]]]].
    2:{ destruct (pi_m _ _ P p Ep) as [Np _]. destruct (pi_ps _ _ P p Np) as [SD _]. rewrite (initC_dims j _ _ _ SD) in Ei. eapply init_zero; exact Ei. }
    pose proof (pi_rcost _ _ P i Hi') as KI.
    destruct (HC i) as [E NW NX NA|d0 -> E1 E2|j -> Hs|v -> Hw|x -> Hw|j p -> Ep Hin|e p ps wk -> Ep Eu Ek E].
    + rewrite E. destruct Ad' as [[j ->]|Ad']; [exfalso; exact (NA j eq_refl Co)|]. apply IH; assumption.
    + exfalso. pose proof (ri_cost _ (pi_reg _ _ P) i Hi') as Lt. lia.
    + destruct Ad' as [[k Q]|Ad']; [discriminate Q|]. rewrite (inited_span j D _ KI) in Hs.
      destruct Hs as [Hs|[? Hs]]; [|discriminate Hs]. injection Hs as <-. apply IH; assumption.
    + destruct Ad' as [[k Q]|Ad']; [discriminate Q|].
      destruct (C21_only_weights_change (wcost w i) v (wcost w' i)) as [_ [K1 [K2 [K3 [K4 [K5 [K6 [K7 [K8 K9]]]]]]]]].
      { eexists. split; [reflexivity|]. destruct Hw as [Hw|[e Hw]]; rewrite Hw; eauto. }
      pose proof (IH i Ad' Hi') as Z. unfold k_zero, k_acc in *. rewrite K4, K5, K6, K7, K8, K9. exact Z.
    + destruct Ad' as [[k Q]|Ad']; [discriminate Q|]. rewrite Hw. exact (IH i Ad' Hi').
    + destruct (pi_m _ _ P p Ep) as [Np _]. destruct (pi_ps _ _ P p Np) as [SD _]. rewrite (initC_dims j _ _ _ SD) in Hin.
      destruct (inited_initC j D _ KI) as [c [Ec _]]. destruct Hin as [Hin|[? Hin]]; [|congruence]. eapply init_zero; exact Hin.
    + exfalso. apply (NoS e). reflexivity.
Qed.

Lemma zero_inv_holds h w : follows_protocol n m N world0 h -> reached h w -> callable world0 h ->
  forall i, added_since_solve h i -> In i (spCost (ctl w)) -> k_zero D (wcost w i).
Proof using SF.
  intros F R. refine (proj1 (protocol_ind (fun h w => callable world0 h -> zero_inv h w) _ _ h w F R)); clear h w F R.
  - intros _ i _ [].
  - intros h w o w' R F P L S IH C. destruct (callable_snoc o h world0 w C R) as [Ch Co].
    exact (zero_inv_step h w o w' P Co S (IH Ch)).
Qed.
End Trace.
