(** Registry.v -- the lists of registered constraints and costs after any history of calls. *)
From Verif Require Import Base Eigen Preview AutoSpan Constraints Costs Controller.

(** ** The kind of a constraint never changes *)
Definition same_kind (c c' : constr) : Prop := ck c' = ck c /\ isIneq c' = isIneq c.

Lemma same_kind_refl c : same_kind c c.
Proof. split; reflexivity. Qed.
Lemma same_kind_type c c' : same_kind c c' -> constraintType c' = constraintType c.
Proof. intros [H1 H2]. unfold constraintType. rewrite H1, H2. reflexivity. Qed.

Ltac break_match H :=
  repeat (match type of H with
  | context [match ?x with _ => _ end] => destruct x; try discriminate H
  end; cbn [obind] in H).

Lemma update_kind ps c c' : c_update ps c = Some c' -> same_kind c c'.
Proof.
  unfold c_update. intro H.
  destruct (ck c) eqn:K;
    [unfold traj_update in H|unfold ctrl_update in H|unfold mixed_update in H|unfold trajB_update in H|unfold ctrlB_update in H];
    cbv zeta in H; unfold obind in H; break_match H; injection H as <-; split; cbn; congruence.
Qed.
Lemma init_kind j ps c c' : initializeConstraint j ps c = Ok c' -> same_kind c c'.
Proof.
  unfold initializeConstraint. intro H.
  destruct (ck c) eqn:K;
    [unfold traj_init in H|unfold ctrl_init in H|unfold mixed_init in H|unfold trajB_init in H|unfold ctrlB_init in H];
    cbv zeta in H; break_match H; injection H as <-; split; cbn; congruence.
Qed.
(** a rejected constraint is left as it was *)
Lemma init_throw j ps c e c' : initializeConstraint j ps c = Throw e c' -> c' = c.
Proof.
  unfold initializeConstraint. intro H.
  destruct (ck c) eqn:K;
    [unfold traj_init in H|unfold ctrl_init in H|unfold mixed_init in H|unfold trajB_init in H|unfold ctrlB_init in H];
    cbv zeta in H; break_match H; injection H as _ <-; reflexivity.
Qed.
Lemma span_kind j c o c' : c_autoSpan j c = o -> o = Ok c' \/ (exists e, o = Throw e c') -> same_kind c c'.
Proof.
  unfold c_autoSpan. intros H O.
  destruct (ck c) eqn:K;
    [unfold traj_autoSpan in H|unfold ctrl_autoSpan in H|unfold mixed_autoSpan in H|unfold trajB_autoSpan in H|unfold ctrlB_autoSpan in H];
    cbv zeta in H; repeat (match type of H with context [match ?x with _ => _ end] => destruct x end);
    subst o; (destruct O as [O|[e' O]]; [try discriminate O; injection O as <-|try discriminate O; injection O as _ <-]);
    split; cbn; congruence.
Qed.

(** ** Lists *)
Lemma cnt_app i a b : cnt i (a ++ b) = cnt i a + cnt i b.
Proof. apply count_occ_app. Qed.
Lemma cnt_cons i x t : cnt i (x :: t) = (if Nat.eqb x i then 1 else 0) + cnt i t.
Proof.
  unfold cnt. destruct (Nat.eqb_spec x i) as [->|N].
  - rewrite count_occ_cons_eq; reflexivity.
  - rewrite count_occ_cons_neq by exact N. reflexivity.
Qed.
Lemma cnt_filter P i l : cnt i (filter P l) = if P i then cnt i l else 0.
Proof.
  induction l as [|x t IH]; cbn [filter]; [destruct (P i); reflexivity|].
  rewrite cnt_cons. destruct (Nat.eqb_spec x i) as [->|N].
  - destruct (P i); [rewrite cnt_cons, Nat.eqb_refl, IH; reflexivity|exact IH].
  - destruct (P x); [rewrite cnt_cons, IH, (proj2 (Nat.eqb_neq x i) N)|rewrite IH]; destruct (P i); reflexivity.
Qed.
Lemma cnt_in i l : 0 < cnt i l <-> In i l.
Proof. unfold cnt. symmetry. apply count_occ_In. Qed.
Lemma cnt_notin i l : ~ In i l -> cnt i l = 0.
Proof. intro H. destruct (cnt i l) eqn:E; [reflexivity|]. exfalso. apply H. apply cnt_in. lia. Qed.

(** erase the first occurrence *)
Fixpoint remove_first (i : nat) (l : list nat) : list nat :=
  match l with
  | [] => []
  | x :: t => if Nat.eqb x i then t else x :: remove_first i t
  end.
Lemma erase_first_spec i l : erase_first i l = if in_dec Nat.eq_dec i l then Some (remove_first i l) else None.
Proof.
  induction l as [|x t IH]; cbn [erase_first remove_first].
  - destruct (in_dec Nat.eq_dec i []); [contradiction|reflexivity].
  - destruct (Nat.eqb_spec x i) as [->|N].
    + destruct (in_dec Nat.eq_dec i (i :: t)) as [|H]; [reflexivity|]. exfalso. apply H. left. reflexivity.
    + rewrite IH. destruct (in_dec Nat.eq_dec i t) as [H|H]; destruct (in_dec Nat.eq_dec i (x :: t)) as [H'|H']; cbn [obind]; try reflexivity.
      * exfalso. apply H'. right. exact H.
      * exfalso. destruct H' as [H'|H']; [congruence|contradiction].
Qed.
Lemma remove_first_filter P i l : P i = true -> filter P (remove_first i l) = remove_first i (filter P l).
Proof.
  intro H. induction l as [|x t IH]; cbn [filter remove_first]; [reflexivity|].
  destruct (Nat.eqb_spec x i) as [->|N].
  - rewrite H. cbn. rewrite Nat.eqb_refl. reflexivity.
  - cbn [filter]. destruct (P x); [|exact IH]. cbn [remove_first]. rewrite (proj2 (Nat.eqb_neq x i) N), IH. reflexivity.
Qed.
Lemma remove_first_filter_no P i l : P i = false -> filter P (remove_first i l) = filter P l.
Proof.
  intro H. induction l as [|x t IH]; cbn [filter remove_first]; [reflexivity|].
  destruct (Nat.eqb_spec x i) as [->|N]; [rewrite H; reflexivity|]. cbn [filter]. rewrite IH. reflexivity.
Qed.
Lemma remove_first_in i l x : In x (remove_first i l) -> In x l.
Proof.
  induction l as [|y t IH]; cbn; [auto|]. destruct (Nat.eqb y i); cbn; tauto.
Qed.
Lemma remove_first_cnt i l k : cnt k (remove_first i l) = if Nat.eqb k i then cnt k l - 1 else cnt k l.
Proof.
  induction l as [|x t IH]; cbn [remove_first].
  - destruct (Nat.eqb k i); reflexivity.
  - rewrite cnt_cons. destruct (Nat.eqb_spec x i) as [E|N]; [subst x|rewrite cnt_cons, IH];
      destruct (Nat.eqb_spec k i) as [E2|N2]; try subst k; rewrite ?Nat.eqb_refl; try lia.
    + rewrite (proj2 (Nat.eqb_neq i k)) by congruence. reflexivity.
    + rewrite (proj2 (Nat.eqb_neq x i)) by congruence. reflexivity.
Qed.

(** ** The deletion loop keeps exactly the entries whose use count exceeds the limit *)
Lemma check_filter (o : nat -> nat) lim (uc : list nat -> nat -> nat) :
  (forall l i, uc l i = o i + cnt i l) ->
  forall l, check uc lim [] l = filter (fun i => lim <? o i + cnt i l) l.
Proof.
  intros U l. set (P := fun i => lim <? o i + cnt i l).
  assert (G : forall todo seen, l = seen ++ todo -> check uc lim (filter P seen) todo = filter P l).
  { induction todo as [|i t IH]; intros seen E; cbn [check].
    - rewrite E, app_nil_r. reflexivity.
    - assert (E' : l = (seen ++ [i]) ++ t) by (rewrite <- app_assoc; exact E).
      rewrite U, cnt_app, cnt_filter.
      assert (Ci : cnt i l = cnt i seen + cnt i (i :: t)) by (rewrite E; apply cnt_app).
      destruct (P i) eqn:Pi.
      + unfold P in Pi. apply Nat.ltb_lt in Pi.
        rewrite (proj2 (Nat.leb_gt _ _)) by lia.
        replace (filter P seen ++ [i]) with (filter P (seen ++ [i])).
        * apply IH. exact E'.
        * rewrite filter_app. cbn [filter]. unfold P at 2. rewrite (proj2 (Nat.ltb_lt _ _) Pi). reflexivity.
      + assert (Pi' : P i = false) by exact Pi. unfold P in Pi. apply Nat.ltb_ge in Pi.
        rewrite (proj2 (Nat.leb_le _ _)) by lia.
        replace (filter P seen) with (filter P (seen ++ [i])).
        * apply IH. exact E'.
        * rewrite filter_app. cbn [filter]. rewrite Pi'. apply app_nil_r. }
  specialize (G l [] eq_refl). cbn [filter] in G. exact G.
Qed.

(** ** The registry invariant *)
Definition has_type (t : cflag) (c : constr) : bool :=
  match constraintType c, t with
  | EqualityConstraint, EqualityConstraint => true
  | InequalityConstraint, InequalityConstraint => true
  | BoundConstraint, BoundConstraint => true
  | _, _ => false
  end.
Definition of_type (wc : nat -> constr) (t : cflag) (l : list nat) : list nat := filter (fun i => has_type t (wc i)) l.
Arguments of_type : simpl never.

Record reg_inv (w : world) : Prop := {
  ri_eq : spEq (ctl w) = of_type (wcon w) EqualityConstraint (spC (ctl w));
  ri_ineq : spIneq (ctl w) = of_type (wcon w) InequalityConstraint (spC (ctl w));
  ri_b : spB (ctl w) = of_type (wcon w) BoundConstraint (spC (ctl w));
  ri_con : forall i, In i (spC (ctl w)) -> i < ncon w;
  ri_cost : forall i, In i (spCost (ctl w)) -> i < ncost w;
  ri_hcon : forall i, ncon w <= i -> hcon w i = 0;
  ri_hcost : forall i, ncost w <= i -> hcost w i = 0
}.

Lemma of_type_ext wc wc' t l : (forall i, In i l -> same_kind (wc i) (wc' i)) -> of_type wc' t l = of_type wc t l.
Proof.
  intro H. unfold of_type. apply filter_ext_in. intros i Hi. unfold has_type. rewrite (same_kind_type _ _ (H i Hi)). reflexivity.
Qed.

(** the registry depends on the lists and on the kinds of the objects only *)
Lemma reg_ext w w' :
  reg_inv w ->
  spC (ctl w') = spC (ctl w) -> spEq (ctl w') = spEq (ctl w) -> spIneq (ctl w') = spIneq (ctl w) ->
  spB (ctl w') = spB (ctl w) -> spCost (ctl w') = spCost (ctl w) ->
  ncon w <= ncon w' -> ncost w <= ncost w' ->
  (forall i, i < ncon w -> same_kind (wcon w i) (wcon w' i)) ->
  (forall i, ncon w' <= i -> hcon w' i = 0) -> (forall i, ncost w' <= i -> hcost w' i = 0) ->
  reg_inv w'.
Proof.
  intros [] E1 E2 E3 E4 E5 N1 N2 K H1 H2.
  assert (X : forall t, of_type (wcon w') t (spC (ctl w)) = of_type (wcon w) t (spC (ctl w))).
  { intro t. apply of_type_ext. intros i Hi. apply K. auto. }
  split; rewrite ?E1, ?E2, ?E3, ?E4, ?E5, ?X; auto.
  - intros i Hi. apply ri_con0 in Hi. lia.
  - intros i Hi. apply ri_cost0 in Hi. lia.
Qed.

Lemma upd_kind (wc : nat -> constr) i c k : same_kind (wc i) c -> same_kind (wc k) (upd wc i c k).
Proof. intro H. unfold upd. destruct (Nat.eqb_spec k i) as [->|]; [exact H|apply same_kind_refl]. Qed.

Lemma update_cons_kind ps l : forall wc wc', update_cons ps l wc = Some wc' -> forall i, same_kind (wc i) (wc' i).
Proof.
  induction l as [|x t IH]; intros wc wc' H i; cbn in H.
  - injection H as <-. apply same_kind_refl.
  - destruct (c_update ps (wc x)) as [c|] eqn:E; [|discriminate]. cbn [obind] in H.
    specialize (IH _ _ H i). pose proof (upd_kind wc x c i (update_kind _ _ _ E)) as [A B]. destruct IH as [C D].
    split; congruence.
Qed.

Lemma has_type_other c t u : has_type t c = true -> t <> u -> has_type u c = false.
Proof. unfold has_type. destruct (constraintType c), t, u; congruence. Qed.
Lemma has_type_self c : has_type (constraintType c) c = true.
Proof. unfold has_type. destruct (constraintType c); reflexivity. Qed.

Lemma of_type_snoc wc t l i : of_type wc t (l ++ [i]) = of_type wc t l ++ (if has_type t (wc i) then [i] else []).
Proof. unfold of_type. rewrite filter_app. cbn [filter]. reflexivity. Qed.

Lemma of_type_remove wc t l i : of_type wc t (remove_first i l) =
  if has_type t (wc i) then remove_first i (of_type wc t l) else of_type wc t l.
Proof.
  unfold of_type. destruct (has_type t (wc i)) eqn:E.
  - apply remove_first_filter. exact E.
  - apply remove_first_filter_no. exact E.
Qed.
Lemma of_type_in wc t l i : In i (of_type wc t l) <-> In i l /\ has_type t (wc i) = true.
Proof. unfold of_type. apply filter_In. Qed.

(** removal of a registered constraint is always defined *)
Lemma removeConstraint_ok w i : reg_inv w ->
  exists w', removeConstraint w i = Some w' /\ reg_inv w' /\
    spC (ctl w') = remove_first i (spC (ctl w)) /\ spEq (ctl w') = remove_first i (spEq (ctl w)) /\
    spIneq (ctl w') = remove_first i (spIneq (ctl w)) /\ spB (ctl w') = remove_first i (spB (ctl w)) /\
    w' = set_ctl w (set_lists (ctl w) (nrEq (ctl w)) (nrIneq (ctl w)) (spC (ctl w')) (spEq (ctl w')) (spIneq (ctl w')) (spB (ctl w'))).
Proof.
  intro R. pose proof R as []. unfold removeConstraint. rewrite erase_first_spec.
  assert (RN : forall t l, has_type t (wcon w i) = false -> remove_first i (of_type (wcon w) t l) = of_type (wcon w) t l).
  { intros t l H.
    unfold of_type. clear -H. induction l as [|x t' IH]; cbn [filter]; [reflexivity|].
    destruct (has_type t (wcon w x)) eqn:E; [|exact IH]. cbn [remove_first].
    destruct (Nat.eqb_spec x i) as [->|]; [congruence|]. rewrite IH. reflexivity. }
  destruct (in_dec Nat.eq_dec i (spC (ctl w))) as [Hi|Hi].
  - assert (T := has_type_self (wcon w i)). destruct (constraintType (wcon w i)) eqn:CT;
      rewrite erase_first_spec.
    + destruct (in_dec Nat.eq_dec i (spEq (ctl w))) as [Hj|Hj]; [|exfalso; apply Hj; rewrite ri_eq0; apply of_type_in; auto].
      cbn [obind]. eexists. split; [reflexivity|]. cbn.
      assert (F1 : has_type InequalityConstraint (wcon w i) = false) by (eapply has_type_other; [exact T|discriminate]).
      assert (F2 : has_type BoundConstraint (wcon w i) = false) by (eapply has_type_other; [exact T|discriminate]).
      split; [|repeat split; try reflexivity].
      * split; cbn; try assumption; rewrite ?of_type_remove, ?T, ?F1, ?F2; try congruence.
        intros k Hk. apply remove_first_in in Hk. auto.
      * rewrite ri_ineq0, RN by exact F1. reflexivity.
      * rewrite ri_b0, RN by exact F2. reflexivity.
    + destruct (in_dec Nat.eq_dec i (spIneq (ctl w))) as [Hj|Hj]; [|exfalso; apply Hj; rewrite ri_ineq0; apply of_type_in; auto].
      cbn [obind]. eexists. split; [reflexivity|]. cbn.
      assert (F1 : has_type EqualityConstraint (wcon w i) = false) by (eapply has_type_other; [exact T|discriminate]).
      assert (F2 : has_type BoundConstraint (wcon w i) = false) by (eapply has_type_other; [exact T|discriminate]).
      split; [|repeat split; try reflexivity].
      * split; cbn; try assumption; rewrite ?of_type_remove, ?T, ?F1, ?F2; try congruence.
        intros k Hk. apply remove_first_in in Hk. auto.
      * rewrite ri_eq0, RN by exact F1. reflexivity.
      * rewrite ri_b0, RN by exact F2. reflexivity.
    + destruct (in_dec Nat.eq_dec i (spB (ctl w))) as [Hj|Hj]; [|exfalso; apply Hj; rewrite ri_b0; apply of_type_in; auto].
      cbn [obind]. eexists. split; [reflexivity|]. cbn.
      assert (F1 : has_type EqualityConstraint (wcon w i) = false) by (eapply has_type_other; [exact T|discriminate]).
      assert (F2 : has_type InequalityConstraint (wcon w i) = false) by (eapply has_type_other; [exact T|discriminate]).
      split; [|repeat split; try reflexivity].
      * split; cbn; try assumption; rewrite ?of_type_remove, ?T, ?F1, ?F2; try congruence.
        intros k Hk. apply remove_first_in in Hk. auto.
      * rewrite ri_eq0, RN by exact F1. reflexivity.
      * rewrite ri_ineq0, RN by exact F2. reflexivity.
  - assert (RI : forall l, (forall k, In k l -> In k (spC (ctl w))) -> remove_first i l = l).
    { intro l. induction l as [|x t IH]; intro H; cbn [remove_first]; [reflexivity|].
      destruct (Nat.eqb_spec x i) as [->|]; [exfalso; apply Hi, H; left; reflexivity|].
      rewrite IH; [reflexivity|]. intros k Hk. apply H. right. exact Hk. }
    exists w. split; [reflexivity|]. split; [exact R|].
    rewrite !RI; auto; try (intros k Hk; rewrite ?ri_eq0, ?ri_ineq0, ?ri_b0 in Hk; apply of_type_in in Hk; tauto).
    repeat split. destruct w as [? ? ? ? ? ? ? m]. destruct m. reflexivity.
Qed.

(** ** Deletion *)

(** entries of the lists that survive solve: those with an outside owner, or registered more than once *)
Definition survives (h : nat -> nat) (l : list nat) (i : nat) : bool := negb (Nat.eqb (h i) 0) || (1 <? cnt i l).

Lemma checkDelete_ok w : reg_inv w ->
  exists lk,
  lk = filter (survives (hcost w) (spCost (ctl w))) (spCost (ctl w)) /\
  let keep := survives (hcon w) (spC (ctl w)) in
  checkDelete w = set_ctl w (set_costs (set_lists (ctl w) (nrEq (ctl w)) (nrIneq (ctl w))
    (filter keep (spC (ctl w))) (filter keep (spEq (ctl w))) (filter keep (spIneq (ctl w))) (filter keep (spB (ctl w)))) lk).
Proof.
  intros []. eexists. split; [reflexivity|]. cbv zeta. unfold checkDelete.
  set (m := ctl w) in *. set (h := hcon w).
  assert (CT : forall i, cnt i (spEq m) + cnt i (spIneq m) + cnt i (spB m) = cnt i (spC m)).
  { intro i. rewrite ri_eq0, ri_ineq0, ri_b0. unfold of_type. rewrite !cnt_filter.
    unfold has_type. destruct (constraintType (wcon w i)); lia. }
  assert (EC : check (fun l => use_con h l (spEq m) (spIneq m) (spB m)) 2 [] (spC m)
               = filter (survives h (spC m)) (spC m)).
  { rewrite (check_filter (fun i => h i + cnt i (spEq m) + cnt i (spIneq m) + cnt i (spB m))).
    2:{ intros l i. unfold use_con. lia. }
    apply filter_ext_in. intros i Hi. apply cnt_in in Hi. unfold survives. specialize (CT i).
    destruct (Nat.eqb_spec (h i) 0); cbn [negb orb]; bdestruct_all; try reflexivity; lia. }
  rewrite EC.
  assert (KC : forall i, cnt i (filter (survives h (spC m)) (spC m)) = if survives h (spC m) i then cnt i (spC m) else 0)
    by (intro i; apply cnt_filter).
  assert (XE : forall i, In i (spEq m) -> cnt i (spIneq m) = 0 /\ cnt i (spB m) = 0 /\ cnt i (spEq m) = cnt i (spC m)).
  { intros i Hi. rewrite ri_eq0 in Hi. apply of_type_in in Hi. destruct Hi as [_ Hi].
    rewrite ri_eq0, ri_ineq0, ri_b0. unfold of_type. rewrite !cnt_filter, Hi.
    rewrite !(has_type_other _ _ _ Hi) by discriminate. auto. }
  assert (XI : forall i, In i (spIneq m) -> cnt i (spEq m) = 0 /\ cnt i (spB m) = 0 /\ cnt i (spIneq m) = cnt i (spC m)).
  { intros i Hi. rewrite ri_ineq0 in Hi. apply of_type_in in Hi. destruct Hi as [_ Hi].
    rewrite ri_eq0, ri_ineq0, ri_b0. unfold of_type. rewrite !cnt_filter, Hi.
    rewrite !(has_type_other _ _ _ Hi) by discriminate. auto. }
  assert (XB : forall i, In i (spB m) -> cnt i (spEq m) = 0 /\ cnt i (spIneq m) = 0 /\ cnt i (spB m) = cnt i (spC m)).
  { intros i Hi. rewrite ri_b0 in Hi. apply of_type_in in Hi. destruct Hi as [_ Hi].
    rewrite ri_eq0, ri_ineq0, ri_b0. unfold of_type. rewrite !cnt_filter, Hi.
    rewrite !(has_type_other _ _ _ Hi) by discriminate. auto. }
  assert (own : forall l i, cnt i l = cnt i (spC m) -> In i l ->
     (2 <? h i + cnt i (filter (survives h (spC m)) (spC m)) + cnt i l) = survives h (spC m) i).
  { intros l i E Hi. apply cnt_in in Hi. rewrite KC, E. rewrite E in Hi. unfold survives.
    destruct (Nat.eqb_spec (h i) 0); cbn [negb orb]; bdestruct_all; try reflexivity; lia. }
  set (lc := filter (survives h (spC m)) (spC m)) in *.
  assert (EE : check (fun l => use_con h lc l (spIneq m) (spB m)) 2 [] (spEq m) = filter (survives h (spC m)) (spEq m)).
  { rewrite (check_filter (fun i => h i + cnt i lc + cnt i (spIneq m) + cnt i (spB m))).
    2:{ intros l i. unfold use_con. lia. }
    apply filter_ext_in. intros i Hi. destruct (XE i Hi) as [X1 [X2 X3]]. rewrite X1, X2.
    rewrite <- (own (spEq m) i X3 Hi). f_equal. lia. }
  rewrite EE. set (le := filter (survives h (spC m)) (spEq m)) in *.
  assert (LE : forall i, cnt i (spEq m) = 0 -> cnt i le = 0).
  { intros i H. unfold le. rewrite cnt_filter, H. destruct (survives h (spC m) i); reflexivity. }
  assert (EI : check (fun l => use_con h lc le l (spB m)) 2 [] (spIneq m) = filter (survives h (spC m)) (spIneq m)).
  { rewrite (check_filter (fun i => h i + cnt i lc + cnt i le + cnt i (spB m))).
    2:{ intros l i. unfold use_con. lia. }
    apply filter_ext_in. intros i Hi. destruct (XI i Hi) as [X1 [X2 X3]]. rewrite (LE i X1), X2.
    rewrite <- (own (spIneq m) i X3 Hi). f_equal. lia. }
  rewrite EI. set (li := filter (survives h (spC m)) (spIneq m)) in *.
  assert (LI : forall i, cnt i (spIneq m) = 0 -> cnt i li = 0).
  { intros i H. unfold li. rewrite cnt_filter, H. destruct (survives h (spC m) i); reflexivity. }
  assert (EB : check (fun l => use_con h lc le li l) 2 [] (spB m) = filter (survives h (spC m)) (spB m)).
  { rewrite (check_filter (fun i => h i + cnt i lc + cnt i le + cnt i li)).
    2:{ intros l i. unfold use_con. lia. }
    apply filter_ext_in. intros i Hi. destruct (XB i Hi) as [X1 [X2 X3]]. rewrite (LE i X1), (LI i X2).
    rewrite <- (own (spB m) i X3 Hi). f_equal. lia. }
  rewrite EB.
  assert (EK : check (fun l i => hcost w i + cnt i l) 1 [] (spCost m) = filter (survives (hcost w) (spCost m)) (spCost m)).
  { rewrite (check_filter (hcost w)) by (intros; lia).
    apply filter_ext_in. intros i Hi. apply cnt_in in Hi. unfold survives.
    destruct (Nat.eqb_spec (hcost w i) 0); cbn [negb orb]; bdestruct_all; try reflexivity; lia. }
  rewrite EK. reflexivity.
Qed.

Lemma of_type_filter wc t P l : of_type wc t (filter P l) = filter P (of_type wc t l).
Proof.
  unfold of_type. induction l as [|x t' IH]; cbn [filter]; [reflexivity|].
  destruct (P x) eqn:E1; destruct (has_type t (wc x)) eqn:E2; cbn [filter]; rewrite ?E1, ?E2, ?IH; reflexivity.
Qed.

Lemma checkDelete_inv w : reg_inv w -> reg_inv (checkDelete w).
Proof.
  intro R. destruct (checkDelete_ok w R) as [lk [Hk ->]]. destruct R.
  split; cbn; try assumption.
  - rewrite of_type_filter. congruence.
  - rewrite of_type_filter. congruence.
  - rewrite of_type_filter. congruence.
  - intros i Hi. apply filter_In in Hi. apply ri_con0. tauto.
  - intros i Hi. rewrite Hk in Hi. apply filter_In in Hi. apply ri_cost0. tauto.
Qed.

(** ** Every defined call keeps the registry invariant *)

Definition lists_kept (w w' : world) : Prop :=
  spC (ctl w') = spC (ctl w) /\ spEq (ctl w') = spEq (ctl w) /\ spIneq (ctl w') = spIneq (ctl w) /\
  spB (ctl w') = spB (ctl w) /\ spCost (ctl w') = spCost (ctl w) /\
  ncon w' = ncon w /\ ncost w' = ncost w /\ hcon w' = hcon w /\ hcost w' = hcost w /\
  (forall i, same_kind (wcon w i) (wcon w' i)).
Lemma kept_inv w w' : reg_inv w -> lists_kept w w' -> reg_inv w'.
Proof.
  intros R [E1 [E2 [E3 [E4 [E5 [E6 [E7 [E8 [E9 K]]]]]]]]].
  apply (reg_ext w w' R); auto; rewrite ?E6, ?E7, ?E8, ?E9; try lia; apply R.
Qed.
Lemma kept_refl w : lists_kept w w.
Proof. repeat split. Qed.
Lemma kept_trans a b c : lists_kept a b -> lists_kept b c -> lists_kept a c.
Proof.
  unfold lists_kept. intros [A1 [A2 [A3 [A4 [A5 [A6 [A7 [A8 [A9 A10]]]]]]]]] [B1 [B2 [B3 [B4 [B5 [B6 [B7 [B8 [B9 B10]]]]]]]]].
  repeat (split; [congruence|]). intro i. destruct (A10 i), (B10 i). split; congruence.
Qed.

Lemma updateSystem_kept j w w' : lmpc_updateSystem j w = Some w' ->
  lists_kept w w' /\ m_ps (ctl w') = m_ps (ctl w) /\ m_is (ctl w') = m_is (ctl w).
Proof.
  unfold lmpc_updateSystem. destruct (m_ps (ctl w)) as [p|] eqn:Ep; [|discriminate].
  destruct (ensureUpdated (wps w p)) as [ps|]; [|discriminate]. cbn [obind].
  unfold updateNr. destruct (fits_int _ && fits_int _); [|discriminate]. cbn [obind].
  destruct (update_cons _ _ _) as [wc|] eqn:Ec; [|discriminate]. cbn [obind].
  destruct (update_costs _ _ _) as [wk|] eqn:Ek; [|discriminate]. cbn [obind].
  intro H. injection H as <-. cbn. split; [|auto]. repeat split; apply (update_cons_kind _ _ _ _ Ec).
Qed.
Lemma build_kept e w w' : build e w = Some w' ->
  lists_kept w w' /\ m_ps (ctl w') = m_ps (ctl w) /\ m_is (ctl w') = m_is (ctl w).
Proof.
  unfold build. destruct (lmpc_updateSystem (s_junk e) w) as [w1|] eqn:E; [|discriminate]. cbn [obind].
  destruct (updateSystem_kept _ _ _ E) as [K [P I]].
  destruct (m_ps (ctl w1)) as [p|] eqn:Ep; [|discriminate].
  destruct (match m_is (ctl w1) with None => _ | Some _ => _ end) as [q|]; [|discriminate]. cbn [obind].
  intro H. injection H as <-. cbn. rewrite Ep. split; [|auto]. eapply kept_trans; [exact K|]. repeat split.
Qed.

(** solve = build, ask the solver, delete, publish *)
Lemma solve_parts e w b w' : solve e w = Some (b, w') ->
  exists w1 r, build e w = Some w1 /\
    s_qp e (vsize (qc (m_qp (ctl w1)))) (nrEq (ctl w1)) (nrIneq (ctl w1)) (m_qp (ctl w1)) = (b, r) /\
    exists w4,
    (let w2 := set_ctl w1 (set_times (set_sol (ctl w1) r) (Some (s_t2 e - s_t1 e)%Qc) (sabTime (ctl w1))) in
     (if b then updateResults (checkDelete w2) else Some (checkDelete w2)) = Some w4) /\
    w' = set_ctl w4 (set_times (ctl w4) (solveTime (ctl w4)) (Some (s_t3 e - s_t0 e)%Qc)).
Proof.
  unfold solve. destruct (build e w) as [w1|] eqn:E; [|discriminate]. cbn [obind]. cbv zeta.
  destruct (s_qp e _ _ _ _) as [ok r] eqn:Es. 
  destruct (if ok then _ else _) as [w4|] eqn:E4; [|discriminate]. cbn [obind].
  intro H. injection H as <- <-. exists w1, r. split; [reflexivity|]. split; [exact Es|]. exists w4. split; [exact E4|reflexivity].
Qed.
Lemma updateResults_kept w w' : updateResults w = Some w' ->
  lists_kept w w' /\ exists x u, w' = set_ctl w (set_result (ctl w) x u).
Proof.
  unfold updateResults. destruct (m_ps (ctl w)) as [p|]; [|discriminate]. destruct (m_is (ctl w)).
  - destruct (tail _ _) as [u|]; [|discriminate]. cbn [obind]. destruct (initialState w) as [xi|]; [|discriminate]. cbn [obind].
    destruct (preview _ _ _) as [x|]; [|discriminate]. cbn [obind]. intro H. injection H as <-. split; [repeat split|eauto].
  - destruct (preview _ _ _) as [x|]; [|discriminate]. cbn [obind]. intro H. injection H as <-. split; [repeat split|eauto].
Qed.

Lemma solve_inv e w b w' : reg_inv w -> solve e w = Some (b, w') -> reg_inv w'.
Proof.
  intros R H. destruct (solve_parts _ _ _ _ H) as [w1 [r [Eb [_ [w4 [E4 ->]]]]]].
  destruct (build_kept _ _ _ Eb) as [K _].
  assert (R1 : reg_inv w1) by (eapply kept_inv; eassumption).
  set (w2 := set_ctl w1 _) in E4.
  assert (R2 : reg_inv w2) by (apply (kept_inv w1); [exact R1|repeat split]).
  apply checkDelete_inv in R2. cbv zeta in E4.
  assert (R4 : reg_inv w4).
  { destruct b; [|injection E4 as <-; exact R2]. eapply kept_inv; [exact R2|]. eapply updateResults_kept; exact E4. }
  apply (kept_inv w4); [exact R4|repeat split].
Qed.

Lemma set_con_inv w i c : reg_inv w -> same_kind (wcon w i) c -> reg_inv (set_con w i c).
Proof.
  intros R K. apply (kept_inv w); [exact R|]. repeat split; cbn; apply upd_kind; exact K.
Qed.
Lemma set_cost_inv w i c : reg_inv w -> reg_inv (set_cost w i c).
Proof. intro R. apply (kept_inv w); [exact R|]. repeat split. Qed.

Lemma addByType_inv w i w' : reg_inv w -> i < ncon w -> addConstraintByType w i = Some w' -> reg_inv w'.
Proof.
  intros [] Hi. unfold addConstraintByType.
  assert (T := has_type_self (wcon w i)).
  assert (F : forall t, t <> constraintType (wcon w i) -> has_type t (wcon w i) = false).
  { intros t Ht. eapply has_type_other; [exact T|congruence]. }
  destruct (constraintType (wcon w i)) eqn:CT; try (destruct (fits_int _); [|discriminate]); intro H; injection H as <-;
    split; cbn; try assumption; rewrite ?of_type_snoc, ?T, ?F by discriminate; rewrite ?app_nil_r; try congruence;
    intros k Hk; apply in_app_or in Hk; destruct Hk as [Hk|[<-|[]]]; auto.
Qed.

Lemma step_inv w o : reg_inv w ->
  match step w o with Ok w' | Throw _ w' => reg_inv w' | UB => True end.
Proof.
  intro R.
  assert (HC : forall i, 0 < hcon w i -> i < ncon w).
  { intros i H. destruct (Nat.lt_ge_cases i (ncon w)) as [L|L]; [exact L|]. rewrite (ri_hcon w R i L) in H. lia. }
  assert (HK : forall i, 0 < hcost w i -> i < ncost w).
  { intros i H. destruct (Nat.lt_ge_cases i (ncost w)) as [L|L]; [exact L|]. rewrite (ri_hcost w R i L) in H. lia. }
  assert (WC : forall i (f : world -> outcome world), 
     (0 < hcon w i -> match f w with Ok w' | Throw _ w' => reg_inv w' | UB => True end) ->
     match with_con w i f with Ok w' | Throw _ w' => reg_inv w' | UB => True end).
  { intros i f H. unfold with_con. destruct (Nat.ltb_spec 0 (hcon w i)) as [L|L]; [exact (H L)|exact R]. }
  assert (WK : forall i (f : world -> outcome world), 
     (0 < hcost w i -> match f w with Ok w' | Throw _ w' => reg_inv w' | UB => True end) ->
     match with_cost w i f with Ok w' | Throw _ w' => reg_inv w' | UB => True end).
  { intros i f H. unfold with_cost. destruct (Nat.ltb_spec 0 (hcost w i)) as [L|L]; [exact (H L)|exact R]. }
  destruct o; cbn [step].
  - destruct (ps_step (wps w p) o); cbn; auto; apply (kept_inv w); auto; repeat split.
  - apply (reg_ext w); cbn; auto; try lia.
    + intros i Hi. unfold upd. rewrite (proj2 (Nat.eqb_neq i (ncon w))) by lia. apply same_kind_refl.
    + intros i Hi. unfold upd. rewrite (proj2 (Nat.eqb_neq i (ncon w))) by lia. apply R. lia.
    + apply R.
  - apply WC. intro H. apply (reg_ext w); cbn; auto; try lia; try apply R.
    + intros; apply same_kind_refl.
    + intros k Hk. unfold upd. apply HC in H. rewrite (proj2 (Nat.eqb_neq k i)) by lia. apply R. lia.
  - apply WC. intro H. apply (reg_ext w); cbn; auto; try lia; try apply R.
    + intros; apply same_kind_refl.
    + intros k Hk. unfold upd. apply HC in H. rewrite (proj2 (Nat.eqb_neq k i)) by lia. apply R. lia.
  - apply WC. intros _.
    destruct (c_autoSpan j (wcon w i)) as [c|e c|] eqn:E; cbn; auto; apply set_con_inv; auto; eapply span_kind; eauto.
  - apply (reg_ext w); cbn; auto; try lia.
    + intros; apply same_kind_refl.
    + apply R.
    + intros i Hi. unfold upd. rewrite (proj2 (Nat.eqb_neq i (ncost w))) by lia. apply R. lia.
  - apply WK. intro H. apply (reg_ext w); cbn; auto; try lia; try apply R.
    + intros; apply same_kind_refl.
    + intros k Hk. unfold upd. apply HK in H. rewrite (proj2 (Nat.eqb_neq k i)) by lia. apply R. lia.
  - apply WK. intro H. apply (reg_ext w); cbn; auto; try lia; try apply R.
    + intros; apply same_kind_refl.
    + intros k Hk. unfold upd. apply HK in H. rewrite (proj2 (Nat.eqb_neq k i)) by lia. apply R. lia.
  - apply WK. intros _. destruct (k_autoSpan j (wcost w i)); cbn; auto; apply set_cost_inv; exact R.
  - apply WK. intros _. destruct (k_weights (wcost w i) v); cbn; auto; apply set_cost_inv; exact R.
  - apply WK. intros _. apply set_cost_inv. exact R.
  - assert (D : forall s, reg_inv (set_ctl w (lmpc_default s r))).
    { intro s. split; cbn; try reflexivity; try contradiction; apply R. }
    assert (IC : forall w0 p w', reg_inv w0 -> initializeController j w0 p = Some w' -> reg_inv w').
    { intros w0 p w' R0. unfold initializeController, clearConstraintMatrices. destruct (fits_int _); [|discriminate].
      cbn [obind]. intro H. injection H as <-. apply (kept_inv w0); [exact R0|repeat split]. }
    unfold construct. destruct k as [|p| |p]; cbv zeta.
    + cbn. apply D.
    + destruct (initializeController j _ p) eqn:E; cbn; [|exact I]. eapply IC; [|exact E]. apply D.
    + cbn. apply D.
    + destruct (initializeController j _ p) eqn:E; cbn; [|exact I]. eapply IC; [|exact E]. apply D.
  - unfold initializeController, clearConstraintMatrices. destruct (fits_int _); cbn; [|exact I].
    apply (kept_inv w); [exact R|repeat split].
  - apply WK. intro H. unfold addCost. destruct (m_ps (ctl w)); [|exact I].
    destruct (initializeCost j (wps w n) (wcost w i)) as [c|e c|]; [| |exact I].
    + pose proof (set_cost_inv w i c R) as []. split; cbn in *; try assumption.
      intros k Hk. apply in_app_or in Hk. destruct Hk as [Hk|[<-|[]]]; auto.
    + apply set_cost_inv. exact R.
  - apply WC. intro H. unfold addConstraint. destruct (m_ps (ctl w)); [|exact I].
    destruct (initializeConstraint j (wps w n) (wcon w i)) as [c|e c|] eqn:E; [| |exact I].
    + destruct (addConstraintByType (set_con w i c) i) as [w'|] eqn:Ea; cbn; [|exact I].
      eapply addByType_inv; [| |exact Ea]; [apply set_con_inv; [exact R|eapply init_kind; exact E]|cbn; auto].
    + apply set_con_inv; [exact R|]. rewrite (init_throw _ _ _ _ _ E). apply same_kind_refl.
  - apply WK. intros _. unfold removeCost. rewrite erase_first_spec.
    destruct (in_dec Nat.eq_dec i (spCost (ctl w))); [|exact R].
    destruct R. split; cbn; try assumption. intros k Hk. apply remove_first_in in Hk. auto.
  - apply WC. intros _. destruct (removeConstraint_ok w i R) as [w' [E [R' _]]]. rewrite E. exact R'.
  - destruct R. split; cbn; try assumption. contradiction.
  - unfold clearConstraints. destruct (m_ps (ctl w)); cbn; [|exact I]. unfold clearConstraintMatrices.
    destruct (fits_int _); cbn; [|exact I]. destruct R. split; cbn; try reflexivity; try assumption. contradiction.
  - apply (kept_inv w); [exact R|repeat split].
  - destruct (solve e w) as [[b w']|] eqn:E; [|exact I]. eapply solve_inv; eassumption.
  - unfold resetX0Cost. apply (kept_inv w); [exact R|]. destruct (m_is (ctl w)); repeat split.
  - unfold resetX0Bounds. apply (kept_inv w); [exact R|]. destruct (m_is (ctl w)); repeat split.
Qed.

Lemma world0_inv : reg_inv world0.
Proof. split; cbn; try reflexivity; contradiction. Qed.

Lemma run_inv h : forall w w', reg_inv w -> run w h = Some w' -> reg_inv w'.
Proof.
  induction h as [|o t IH]; intros w w' R H; cbn [run] in H.
  - injection H as <-. exact R.
  - pose proof (step_inv w o R) as S. destruct (step w o) as [w1|e w1|]; [| |discriminate]; eapply IH; eassumption.
Qed.
Lemma run_app h1 h2 w : run w (h1 ++ h2) = (w' <- run w h1 ;; run w' h2).
Proof.
  revert w. induction h1 as [|o t IH]; intro w; cbn [run app]; [reflexivity|].
  destruct (step w o); auto.
Qed.
