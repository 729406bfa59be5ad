(** Assembly.v -- what solve hands to the solver, in terms of the registered objects. *)
From Verif Require Import Base Eigen Preview SpecApi AutoSpan Constraints Costs Controller Registry Checkers SpecController.

(** ** Sums and stacks *)

Lemma lsum_app a b f : lsum (a ++ b) f = (lsum a f + lsum b f)%Qc.
Proof. induction a as [|x a IH]; cbn [lsum app]; [ring|]. rewrite IH. ring. Qed.
Lemma lsum_ext l f g : (forall i, In i l -> f i = g i) -> lsum l f = lsum l g.
Proof.
  induction l as [|x l IH]; intro H; cbn [lsum]; [reflexivity|].
  rewrite (H x) by (left; reflexivity). rewrite IH; [reflexivity|]. intros; apply H; right; assumption.
Qed.
Lemma rows_of_app nr a b : rows_of nr (a ++ b) = rows_of nr a + rows_of nr b.
Proof. unfold rows_of. rewrite map_app, list_sum_app. reflexivity. Qed.
Lemma rows_of_cons nr i t : rows_of nr (i :: t) = nr i + rows_of nr t.
Proof. reflexivity. Qed.
Lemma rows_of_ext f g l : (forall i, In i l -> f i = g i) -> rows_of f l = rows_of g l.
Proof. intro H. unfold rows_of. f_equal. apply map_ext_in. exact H. Qed.
Lemma total_rows_of wc l : total_rows wc l = rows_of (fun i => nrConstr (wc i)) l.
Proof. unfold rows_of. induction l as [|x t IH]; cbn; [reflexivity|]. f_equal. exact IH. Qed.

Lemma sum_costs_spec wk l : forall Q c Q' c', sum_costs wk l (Q, c) = Some (Q', c') ->
  rows Q' = rows Q /\ cols Q' = cols Q /\ vsize c' = vsize c /\
  (forall k, In k l -> rows (kQ (wk k)) = rows Q /\ cols (kQ (wk k)) = cols Q /\ vsize (kc (wk k)) = vsize c) /\
  (forall i j, at_ Q' i j = (at_ Q i j + lsum l (fun k => at_ (kQ (wk k)) i j))%Qc) /\
  (forall i, vget c' i = (vget c i + lsum l (fun k => vget (kc (wk k)) i))%Qc).
Proof.
  induction l as [|k t IH]; intros Q c Q' c' H; unfold sum_costs in H; cbn [for_list] in H.
  - injection H as <- <-. cbn [lsum]. do 3 (split; [reflexivity|]). split; [intros ? []|]. split; intros; ring.
  - unfold madd in H. destruct (Nat.eqb_spec (rows Q) (rows (kQ (wk k)))) as [E1|]; [|discriminate].
    destruct (Nat.eqb_spec (cols Q) (cols (kQ (wk k)))) as [E2|]; [|discriminate]. cbn [andb obind] in H.
    unfold vadd in H. destruct (Nat.eqb_spec (vsize c) (vsize (kc (wk k)))) as [E3|]; [|discriminate]. cbn [obind] in H.
    apply IH in H. cbn [rows cols vsize at_ vget] in H. destruct H as [H1 [H2 [H3 [H4 [H5 H6]]]]].
    do 3 (split; [assumption|]). split.
    + intros i [<-|Hi]; [auto|]. apply H4. exact Hi.
    + cbn [lsum]. split; intros; rewrite ?H5, ?H6; ring.
Qed.

(** a loop writing the rows of one object after those of the previous one *)
Definition writes (nr : nat -> nat) (row : nat -> nat -> nat -> Qc) (rhs : nat -> nat -> ext) (W : nat)
    (body : nat -> mx * vec ext * nat -> option (mx * vec ext * nat)) : Prop :=
  forall i A b n s', body i (A, b, n) = Some s' -> cols A = W ->
    exists A' b', s' = (A', b', n + nr i) /\ rows A' = rows A /\ cols A' = W /\ vsize b' = vsize b /\
      (forall r, r < nr i -> forall j, j < W -> at_ A' (n + r) j = row i r j) /\
      (forall r, r < nr i -> vget b' (n + r) = rhs i r) /\
      (forall r, r < n -> forall j, j < W -> at_ A' r j = at_ A r j) /\ (forall r, r < n -> vget b' r = vget b r).

Lemma stack_spec nr row rhs W body (WR : writes nr row rhs W body) l : forall A b n A' b' n',
  for_list l body (A, b, n) = Some (A', b', n') -> cols A = W ->
  n' = n + rows_of nr l /\ rows A' = rows A /\ cols A' = W /\ vsize b' = vsize b /\
  (forall l1 i l2, l = l1 ++ i :: l2 -> forall r, r < nr i ->
     (forall j, j < W -> at_ A' (n + rows_of nr l1 + r) j = row i r j) /\ vget b' (n + rows_of nr l1 + r) = rhs i r) /\
  (forall r, r < n -> (forall j, j < W -> at_ A' r j = at_ A r j) /\ vget b' r = vget b r).
Proof.
  induction l as [|x t IH]; intros A b n A' b' n' H CW; cbn [for_list] in H.
  - injection H as <- <- <-. split; [unfold rows_of; cbn; lia|]. do 3 (split; [auto|]). split; [|auto].
    intros l1 i l2 E. destruct l1; discriminate E.
  - destruct (body x (A, b, n)) as [s'|] eqn:B; [|discriminate]. cbn [obind] in H.
    destruct (WR x A b n s' B CW) as [A1 [b1 [-> [R1 [C1 [V1 [K1 [K2 [K3 K4]]]]]]]]].
    apply IH in H; [|exact C1]. destruct H as [H1 [H2 [H3 [H4 [H5 H6]]]]].
    rewrite rows_of_cons. split; [lia|]. split; [congruence|]. split; [exact H3|]. split; [congruence|]. split.
    + intros l1 i l2 E r Hr. destruct l1 as [|y l1].
      * injection E as -> ->. change (rows_of nr []) with 0. rewrite Nat.add_0_r.
        destruct (H6 (n + r)) as [X1 X2]; [lia|]. rewrite X2. split; [|auto]. intros j Hj. rewrite X1 by exact Hj. auto.
      * injection E as -> ->. rewrite rows_of_cons. destruct (H5 l1 i l2 eq_refl r Hr) as [X1 X2].
        replace (n + (nr y + rows_of nr l1) + r) with (n + nr y + rows_of nr l1 + r) by lia. auto.
    + intros r Hr. destruct (H6 r) as [X1 X2]; [lia|]. rewrite X2, K4 by exact Hr. split; [|reflexivity].
      intros j Hj. rewrite X1 by exact Hj. apply K3; assumption.
Qed.
Lemma stack_stacked nr row rhs W body (WR : writes nr row rhs W body) l A b A' b' n' :
  for_list l body (A, b, 0) = Some (A', b', n') -> rows A = rows_of nr l -> cols A = W -> vsize b = rows_of nr l ->
  stacked nr row rhs W l A' b'.
Proof.
  intros H R C V. apply (stack_spec nr row rhs W body WR) in H; [|exact C].
  destruct H as [_ [H2 [H3 [H4 [H5 _]]]]]. repeat (split; [congruence|]). exact H5.
Qed.

Lemma setBlock_inv m r c nr nc e m' : setBlock m r c nr nc e = Some m' ->
  r + nr <= rows m /\ c + nc <= cols m /\ rows e = nr /\ cols e = nc /\
  m' = Mx (rows m) (cols m) (fun i j =>
    if (r <=? i) && (i <? r + nr) && (c <=? j) && (j <? c + nc) then at_ e (i - r) (j - c) else at_ m i j).
Proof.
  unfold setBlock. destruct ((r + nr <=? rows m) && (c + nc <=? cols m)) eqn:E1; [|discriminate].
  destruct (Nat.eqb (rows e) nr && Nat.eqb (cols e) nc) eqn:E2; [|discriminate]. intro H. injection H as <-.
  apply andb_true_iff in E1 as [A1 A2]. apply andb_true_iff in E2 as [B1 B2].
  apply Nat.leb_le in A1, A2. apply Nat.eqb_eq in B1, B2. auto 10.
Qed.
Lemma setSeg_inv {T} (v : vec T) s n e v' : setSeg v s n e = Some v' ->
  s + n <= vsize v /\ vsize e = n /\
  v' = Vec (vsize v) (fun i => if (s <=? i) && (i <? s + n) then vget e (i - s) else vget v i).
Proof.
  unfold setSeg. destruct (s + n <=? vsize v) eqn:E1; [|discriminate].
  destruct (Nat.eqb_spec (vsize e) n); [|discriminate]. intro H. injection H as <-. apply Nat.leb_le in E1. auto.
Qed.

Lemma stack_rows_writes wc fu :
  writes (fun i => nrConstr (wc i)) (fun i => at_ (cA (wc i))) (fun i => vget (cb (wc i))) fu
    (fun i s => let '(A, b, n) := s in
       let c := wc i in
       A' <- setBlock A n 0 (nrConstr c) fu (cA c) ;;
       b' <- setSeg b n (nrConstr c) (cb c) ;;
       Some (A', b', n + nrConstr c)).
Proof.
  intros i A b n s' H CW. cbv zeta in H.
  destruct (setBlock A n 0 (nrConstr (wc i)) fu (cA (wc i))) as [A'|] eqn:E1; [|discriminate]. cbn [obind] in H.
  destruct (setSeg b n (nrConstr (wc i)) (cb (wc i))) as [b'|] eqn:E2; [|discriminate]. cbn [obind] in H. injection H as <-.
  apply setBlock_inv in E1 as [X1 [X2 [X3 [X4 ->]]]]. apply setSeg_inv in E2 as [Y1 [Y2 ->]].
  eexists _, _. split; [reflexivity|].
  cbn [rows cols vsize at_ vget]. do 3 (split; [auto|]). split; [|split; [|split]].
  - intros r Hr j Hj. eqb_true. cbn [andb]. f_equal; lia.
  - intros r Hr. eqb_true. cbn [andb]. f_equal. lia.
  - intros r Hr j Hj. rewrite (proj2 (Nat.leb_gt n r)) by lia. reflexivity.
  - intros r Hr. rewrite (proj2 (Nat.leb_gt n r)) by lia. reflexivity.
Qed.

(** the row [Y | A] of the extended problem *)
Definition ext_row (c : constr) (xd : nat) (r j : nat) : Qc := if j <? xd then at_ (cY c) r j else at_ (cA c) r (j - xd).
Lemma is_stack_rows_writes wc xd fu :
  writes (fun i => nrConstr (wc i)) (fun i => ext_row (wc i) xd) (fun i => vget (cz (wc i))) (xd + fu)
    (fun i s => let '(A, b, n) := s in
       let c := wc i in
       A' <- setBlock A n 0 (nrConstr c) xd (cY c) ;;
       A'' <- setBlock A' n xd (nrConstr c) fu (cA c) ;;
       b' <- setSeg b n (nrConstr c) (cz c) ;;
       Some (A'', b', n + nrConstr c)).
Proof.
  intros i A b n s' H CW. cbv zeta in H.
  destruct (setBlock A n 0 (nrConstr (wc i)) xd (cY (wc i))) as [A1|] eqn:E1; [|discriminate]. cbn [obind] in H.
  destruct (setBlock A1 n xd (nrConstr (wc i)) fu (cA (wc i))) as [A2|] eqn:E2; [|discriminate]. cbn [obind] in H.
  destruct (setSeg b n (nrConstr (wc i)) (cz (wc i))) as [b'|] eqn:E3; [|discriminate]. cbn [obind] in H. injection H as <-.
  apply setBlock_inv in E1 as [X1 [X2 [X3 [X4 ->]]]]. apply setBlock_inv in E2 as [Z1 [Z2 [Z3 [Z4 ->]]]].
  apply setSeg_inv in E3 as [Y1 [Y2 ->]].
  eexists _, _. split; [reflexivity|].
  cbn [rows cols vsize at_ vget]. do 3 (split; [auto|]). split; [|split; [|split]].
  - intros r Hr j Hj. unfold ext_row. rewrite !(proj2 (Nat.leb_le n (n + r))) by lia.
    rewrite !(proj2 (Nat.ltb_lt (n + r) (n + _))) by lia. cbn [andb].
    rewrite (proj2 (Nat.ltb_lt j (xd + fu))) by lia. change (0 <=? j) with true. rewrite andb_true_r. cbn [andb].
    destruct (Nat.ltb_spec j xd).
    + rewrite (proj2 (Nat.leb_gt xd j)) by lia. rewrite (proj2 (Nat.ltb_lt j (0 + xd))) by lia. f_equal; lia.
    + rewrite (proj2 (Nat.leb_le xd j)) by lia. f_equal; lia.
  - intros r Hr. eqb_true. cbn [andb]. f_equal. lia.
  - intros r Hr j Hj. rewrite !(proj2 (Nat.leb_gt n r)) by lia. reflexivity.
  - intros r Hr. rewrite (proj2 (Nat.leb_gt n r)) by lia. reflexivity.
Qed.

(** the bounds: written one after the other from position [n] *)
Lemma stack_bounds_spec wc l : forall lb ub n lb' ub' n', stack_bounds wc l (lb, ub, n) = Some (lb', ub', n') ->
  let nr := fun i => nrConstr (wc i) in
  n' = n + rows_of nr l /\ (l = [] \/ n' <= vsize lb /\ n' <= vsize ub) /\ vsize lb' = vsize lb /\ vsize ub' = vsize ub /\
  (forall i, In i l -> vsize (clb (wc i)) = nr i /\ vsize (cub (wc i)) = nr i) /\
  (forall l1 i l2, l = l1 ++ i :: l2 -> forall r, r < nr i ->
     vget lb' (n + rows_of nr l1 + r) = vget (clb (wc i)) r /\ vget ub' (n + rows_of nr l1 + r) = vget (cub (wc i)) r) /\
  (forall r, r < n \/ n' <= r -> vget lb' r = vget lb r /\ vget ub' r = vget ub r).
Proof.
  cbv zeta. induction l as [|x t IH]; intros lb ub n lb' ub' n' H; unfold stack_bounds in H; cbn [for_list] in H.
  - injection H as <- <- <-. split; [unfold rows_of; cbn; lia|]. do 3 (split; [auto|]). split; [intros ? []|]. split; [|auto].
    intros l1 i l2 E. destruct l1; discriminate E.
  - destruct (setSeg lb n (nrConstr (wc x)) (clb (wc x))) as [l1|] eqn:E1; [|discriminate]. cbn [obind] in H.
    destruct (setSeg ub n (nrConstr (wc x)) (cub (wc x))) as [u1|] eqn:E2; [|discriminate]. cbn [obind] in H.
    apply setSeg_inv in E1 as [X1 [X2 ->]]. apply setSeg_inv in E2 as [Y1 [Y2 ->]].
    apply IH in H. cbn [vsize vget] in H. destruct H as [H1 [H2 [H3 [H4 [H5 [H6 H7]]]]]].
    rewrite rows_of_cons. split; [lia|].
    split. { right. destruct H2 as [->|H2]; [unfold rows_of in H1; cbn in H1|]; lia. }
    split; [exact H3|]. split; [exact H4|]. split; [|split].
    + intros i [<-|Hi]; [auto|]. apply H5. exact Hi.
    + intros l1 i l2 E r Hr. destruct l1 as [|y l1].
      * injection E as -> ->. change (rows_of _ []) with 0. rewrite Nat.add_0_r.
        destruct (H7 (n + r)) as [Z1 Z2]; [left; lia|]. rewrite Z1, Z2. eqb_true. cbn [andb].
        replace (n + r - n) with r by lia. auto.
      * injection E as -> ->. rewrite rows_of_cons. destruct (H6 l1 i l2 eq_refl r Hr) as [Z1 Z2].
        replace (n + (nrConstr (wc y) + rows_of (fun i => nrConstr (wc i)) l1) + r)
          with (n + nrConstr (wc y) + rows_of (fun i => nrConstr (wc i)) l1 + r) by lia. auto.
    + intros r Hr. destruct (H7 r) as [Z1 Z2]; [lia|]. rewrite Z1, Z2.
      destruct Hr as [Hr|Hr].
      * rewrite (proj2 (Nat.leb_gt n r)) by lia. auto.
      * rewrite (proj2 (Nat.ltb_ge r (n + nrConstr (wc x)))) by lia. rewrite andb_false_r. auto.
Qed.

(** ** The objects during solve *)

Lemma update_nr ps c c' : c_update ps c = Some c' -> nrConstr c' = nrConstr c.
Proof.
  unfold c_update. intro H.
  destruct (ck c) eqn:K;
    [unfold traj_update in H|unfold ctrl_update in H|unfold mixed_update in H|unfold trajB_update in H|unfold ctrlB_update in H];
    cbv zeta in H; unfold obind in H; break_match H; injection H as <-; reflexivity.
Qed.
Lemma update_cons_nr ps l : forall wc wc', update_cons ps l wc = Some wc' -> forall i, nrConstr (wc' i) = nrConstr (wc i).
Proof.
  induction l as [|x t IH]; intros wc wc' H i; cbn in H.
  - injection H as <-. reflexivity.
  - destruct (c_update ps (wc x)) as [c|] eqn:E; [|discriminate]. cbn [obind] in H.
    rewrite (IH _ _ H i). unfold upd. destruct (Nat.eqb_spec i x) as [->|]; [apply (update_nr _ _ _ E)|reflexivity].
Qed.

(** the parts of the building phase *)
Lemma build_parts e w w1 : build e w = Some w1 ->
  exists p ps wc wk q, m_ps (ctl w) = Some p /\ ensureUpdated (wps w p) = Some ps /\
    fits_int (total_rows (wcon w) (spEq (ctl w))) = true /\ fits_int (total_rows (wcon w) (spIneq (ctl w))) = true /\
    update_cons ps (spC (ctl w)) (wcon w) = Some wc /\ update_costs ps (spCost (ctl w)) (wcost w) = Some wk /\
    let m1 := updateConstraintMatrixSize (s_junk e) ps
      (set_lists (set_qpm (ctl w) (resetQP (m_qp (ctl w)))) (total_rows (wcon w) (spEq (ctl w))) (total_rows (wcon w) (spIneq (ctl w)))
         (spC (ctl w)) (spEq (ctl w)) (spIneq (ctl w)) (spB (ctl w))) in
    let w0 := World (upd (wps w) p ps) (ncon w) wc (hcon w) (ncost w) wk (hcost w) m1 in
    (match m_is (ctl w) with None => lmpc_makeQPForm ps w0 | Some is => is_makeQPForm (s_inv e) is ps w0 end) = Some q /\
    w1 = World (upd (wps w) p ps) (ncon w) wc (hcon w) (ncost w) wk (hcost w) (set_qpm m1 q).
Proof.
  unfold build, lmpc_updateSystem. destruct (m_ps (ctl w)) as [p|] eqn:Ep; [|discriminate].
  destruct (ensureUpdated (wps w p)) as [ps|] eqn:Eu; [|discriminate]. cbn [obind].
  unfold updateNr. cbn [spEq spIneq spC spB set_qpm].
  destruct (fits_int (total_rows (wcon w) (spEq (ctl w)))) eqn:F1; [|discriminate].
  destruct (fits_int (total_rows (wcon w) (spIneq (ctl w)))) eqn:F2; [|discriminate]. cbn [obind andb].
  cbn [spC spCost updateConstraintMatrixSize set_qpm set_lists].
  destruct (update_cons ps (spC (ctl w)) (wcon w)) as [wc|] eqn:Ec; [|discriminate]. cbn [obind].
  destruct (update_costs ps (spCost (ctl w)) (wcost w)) as [wk|] eqn:Ek; [|discriminate]. cbn [obind].
  cbn [ctl m_ps updateConstraintMatrixSize set_qpm set_lists]. rewrite Ep. cbn [m_is wps].
  replace (upd (wps w) p ps p) with ps by (unfold upd; rewrite Nat.eqb_refl; reflexivity).
  intro H. exists p, ps, wc, wk.
  destruct (match m_is (ctl w) with None => _ | Some _ => _ end) as [q|] eqn:Eq; [|discriminate].
  cbn [obind] in H. injection H as <-. exists q. do 6 (split; [assumption || reflexivity|]).
  cbv zeta. split; [|reflexivity].
  rewrite <- Eq. destruct (m_is (ctl w)); reflexivity.
Qed.

(** ** makeQPForm of LMPC *)

Lemma lmpc_form_spec ps w q' : lmpc_makeQPForm ps w = Some q' ->
  let m := ctl w in let q := m_qp m in
  (exists s, sum_costs (wcost w) (spCost m) (qQ q, qc q) = Some s /\ qQ q' = fst s /\ qc q' = snd s) /\
  (exists s, stack_rows (fullUDim ps) (wcon w) (spEq m) (qAeq q, qbeq q, 0) = Some (qAeq q', qbeq q', s)) /\
  (exists s, stack_rows (fullUDim ps) (wcon w) (spIneq m) (qAineq q, qbineq q, 0) = Some (qAineq q', qbineq q', s)) /\
  (exists s, stack_bounds (wcon w) (spB m) (qlb q, qub q, 0) = Some (qlb q', qub q', s)).
Proof.
  unfold lmpc_makeQPForm. cbv zeta. intro H.
  destruct (sum_costs _ _ _) as [[Q c]|] eqn:E1; [|discriminate]. cbn [obind] in H.
  destruct (stack_rows _ _ (spEq _) _) as [[[A b] s]|] eqn:E2; [|discriminate]. cbn [obind] in H.
  destruct (stack_rows _ _ (spIneq _) _) as [[[A' b'] s']|] eqn:E3; [|discriminate]. cbn [obind] in H.
  destruct (stack_bounds _ _ _) as [[[lb ub] s'']|] eqn:E4; [|discriminate]. cbn [obind] in H.
  injection H as <-. cbn. eauto 10.
Qed.

(** ** makeQPForm of InitialStateLMPC *)

Lemma addBlock_inv m r c nr nc e m' : addBlock m r c nr nc e = Some m' ->
  r + nr <= rows m /\ c + nc <= cols m /\ rows e = nr /\ cols e = nc /\
  m' = Mx (rows m) (cols m) (fun i j =>
    if (r <=? i) && (i <? r + nr) && (c <=? j) && (j <? c + nc)
    then (at_ m (r + (i - r)) (c + (j - c)) + at_ e (i - r) (j - c))%Qc else at_ m i j).
Proof.
  unfold addBlock, block. destruct ((r + nr <=? rows m) && (c + nc <=? cols m)) eqn:E1; [|discriminate]. cbn [obind].
  unfold madd. cbn [rows cols at_]. destruct (Nat.eqb_spec nr (rows e)) as [E2|]; [|discriminate].
  destruct (Nat.eqb_spec nc (cols e)) as [E3|]; [|discriminate]. cbn [andb obind]. intro H.
  apply setBlock_inv in H as [A1 [A2 [A3 [A4 ->]]]]. cbn [rows cols at_]. auto 10.
Qed.
Lemma vadd_inv a b c : vadd a b = Some c -> vsize a = vsize b /\ c = Vec (vsize a) (fun i => vget a i + vget b i)%Qc.
Proof. unfold vadd. destruct (Nat.eqb_spec (vsize a) (vsize b)); [|discriminate]. intro H. injection H as <-. auto. Qed.
Lemma madd_inv a b c : madd a b = Some c -> rows a = rows b /\ cols a = cols b /\
  c = Mx (rows a) (cols a) (fun i j => at_ a i j + at_ b i j)%Qc.
Proof.
  unfold madd. destruct (Nat.eqb_spec (rows a) (rows b)); [|discriminate].
  destruct (Nat.eqb_spec (cols a) (cols b)); [|discriminate]. intro H. injection H as <-. auto.
Qed.
Lemma tail_inv {T} (v : vec T) n v' : tail v n = Some v' -> n <= vsize v /\ v' = Vec n (fun i => vget v (vsize v - n + i)).
Proof.
  unfold tail, seg. destruct (n <=? vsize v) eqn:E; [|discriminate]. apply Nat.leb_le in E.
  destruct (_ <=? vsize v); [|discriminate]. intro H. injection H as <-. auto.
Qed.

(** what the costs add to the extended matrix and vector *)
Definition is_entry (xd : nat) (k : cost) (i j : nat) : Qc :=
  if j <? xd then 0%Qc else if i <? xd then at_ (kE k) i (j - xd) else at_ (kQ k) (i - xd) (j - xd).
Definition is_lin (xd : nat) (k : cost) (j : nat) : Qc := if j <? xd then 0%Qc else vget (kf k) (j - xd).

Lemma is_sum_costs_spec ps wk l : forall Q c Q' c', is_sum_costs ps wk l (Q, c) = Some (Q', c') ->
  let xd := xDim ps in let n := xDim ps + fullUDim ps in
  rows Q' = rows Q /\ cols Q' = cols Q /\ vsize c' = vsize c /\
  (rows Q = n -> cols Q = n -> vsize c = n ->
   (forall k, In k l -> rows (kQ (wk k)) = fullUDim ps /\ cols (kQ (wk k)) = fullUDim ps /\
      rows (kE (wk k)) = xd /\ cols (kE (wk k)) = fullUDim ps /\ vsize (kf (wk k)) = fullUDim ps) /\
   (forall i j, i < n -> j < n -> at_ Q' i j = (at_ Q i j + lsum l (fun k => is_entry xd (wk k) i j))%Qc) /\
   (forall i, i < n -> vget c' i = (vget c i + lsum l (fun k => is_lin xd (wk k) i))%Qc)).
Proof.
  cbv zeta. induction l as [|k t IH]; intros Q c Q' c' H; unfold is_sum_costs in H; cbn [for_list] in H.
  - injection H as <- <-. cbn [lsum]. do 3 (split; [reflexivity|]). intros. split; [intros ? []|]. split; intros; ring.
  - cbv zeta in H. destruct ((fullUDim ps <=? rows Q) && _ && _) eqn:G; [|discriminate].
    destruct (addBlock Q _ _ _ _ (kQ (wk k))) as [Q1|] eqn:E1; [|discriminate]. cbn [obind] in H.
    destruct (addBlock Q1 _ _ _ _ (kE (wk k))) as [Q2|] eqn:E2; [|discriminate]. cbn [obind] in H.
    destruct (tail c _) as [tl|] eqn:E3; [|discriminate]. cbn [obind] in H.
    destruct (vadd tl _) as [s|] eqn:E4; [|discriminate]. cbn [obind] in H.
    destruct (setSeg c _ _ s) as [c1|] eqn:E5; [|discriminate]. cbn [obind] in H.
    fold (is_sum_costs ps wk t) in H. apply (IH Q2 c1) in H. clear IH G.
    apply addBlock_inv in E1 as [A1 [A2 [A3 [A4 ->]]]]. apply addBlock_inv in E2 as [B1 [B2 [B3 [B4 ->]]]].
    apply tail_inv in E3 as [C1 ->]. apply vadd_inv in E4 as [D1 ->]. apply setSeg_inv in E5 as [F1 [F2 ->]].
    cbn [rows cols vsize at_ vget] in *. destruct H as [H1 [H2 [H3 H4]]].
    do 3 (split; [assumption|]). intros R C V. specialize (H4 R C V). destruct H4 as [H4 [H5 H6]].
    split; [|split].
    + intros i [<-|Hi]; [auto|]. apply H4. exact Hi.
    + intros i j Hi Hj. rewrite H5 by assumption. cbn [lsum]. clear H5 H6 H4. rewrite R, C.
      replace (xDim ps + fullUDim ps - fullUDim ps) with (xDim ps) by lia. unfold is_entry.
      rewrite (proj2 (Nat.ltb_lt i (xDim ps + fullUDim ps)) Hi), (proj2 (Nat.ltb_lt j (xDim ps + fullUDim ps)) Hj).
      change (0 <=? i) with true. rewrite Nat.add_0_l, Nat.sub_0_r. cbn [andb]. rewrite !andb_true_r.
      destruct (Nat.leb_spec (xDim ps) j), (Nat.ltb_spec j (xDim ps)); try lia; rewrite ?andb_true_r, ?andb_false_r.
      * destruct (Nat.ltb_spec i (xDim ps)), (Nat.leb_spec (xDim ps) i); try lia.
        -- rewrite Nat.add_0_l. replace (xDim ps + (j - xDim ps)) with j by lia.
           replace (i - 0) with i by lia. rewrite (proj2 (Nat.leb_gt (xDim ps) i)) by lia. cbn [andb]. ring.
        -- replace (xDim ps + (j - xDim ps)) with j by lia. replace (xDim ps + (i - xDim ps)) with i by lia. ring.
      * ring.
    + intros j Hj. rewrite H6 by assumption. cbn [lsum]. rewrite V.
      replace (xDim ps + fullUDim ps - fullUDim ps) with (xDim ps) by lia. unfold is_lin.
      rewrite (proj2 (Nat.ltb_lt j (xDim ps + fullUDim ps)) Hj), andb_true_r.
      destruct (Nat.leb_spec (xDim ps) j), (Nat.ltb_spec j (xDim ps)); try lia.
      * replace (xDim ps + (j - xDim ps)) with j by lia. ring.
      * ring.
Qed.

Lemma block_inv m r c nr nc b : block m r c nr nc = Some b ->
  r + nr <= rows m /\ c + nc <= cols m /\ b = Mx nr nc (fun i j => at_ m (r + i) (c + j)).
Proof.
  unfold block. destruct ((r + nr <=? rows m) && (c + nc <=? cols m)) eqn:E1; [|discriminate].
  intro H. injection H as <-. apply andb_true_iff in E1 as [A1 A2]. apply Nat.leb_le in A1, A2. auto.
Qed.
Lemma mmul_inv a b c : mmul a b = Some c -> cols a = rows b /\
  c = Mx (rows a) (cols b) (fun i j => sum (cols a) (fun k => at_ a i k * at_ b k j)%Qc).
Proof. unfold mmul. destruct (Nat.eqb_spec (cols a) (rows b)); [|discriminate]. intro H. injection H as <-. auto. Qed.

(** the lower right block of the extended matrix, whose inverse is taken *)
Definition uu_block (xd fu : nat) (Q : mx) : mx := Mx fu fu (fun i j => at_ Q (xd + i) (xd + j)).
Lemma is_corner_spec inv xd fu R Q Q' : is_corner inv xd fu R Q = Some Q' ->
  rows Q' = rows Q /\ cols Q' = cols Q /\
  (rows Q = xd + fu -> cols Q = xd + fu ->
   exists Quu, meq Quu (uu_block xd fu Q) /\
   rows R = xd /\ cols R = xd /\ rows (inv Quu) = fu /\ cols (inv Quu) = fu /\
   (forall i j, xd <= j -> j < xd + fu -> i < xd + fu -> at_ Q' i j = at_ Q i j) /\
   (forall i j, xd <= i -> i < xd + fu -> j < xd -> at_ Q' i j = at_ Q j i) /\
   (forall i j, i < xd -> j < xd -> at_ Q' i j =
      (at_ R i j + sum fu (fun k => sum fu (fun l => at_ Q i (xd + l) * at_ (inv Quu) l k) * at_ Q j (xd + k)))%Qc)).
Proof.
  unfold is_corner. destruct ((fu <=? rows Q) && _ && _ && _) eqn:G; [|discriminate]. intro H.
  destruct (block Q 0 _ xd fu) as [E|] eqn:E0; [|discriminate]. cbn [obind] in H.
  destruct (setBlock Q _ 0 fu xd _) as [Q1|] eqn:E1; [|discriminate]. cbn [obind] in H.
  destruct (block Q1 0 _ xd fu) as [E1'|] eqn:E2; [|discriminate]. cbn [obind] in H.
  destruct (block Q1 _ _ fu fu) as [Quu|] eqn:E3; [|discriminate]. cbn [obind] in H.
  destruct (mmul E1' _) as [eq|] eqn:E4; [|discriminate]. cbn [obind] in H.
  destruct (mmul eq _) as [eqe|] eqn:E5; [|discriminate]. cbn [obind] in H.
  destruct (madd R eqe) as [tl|] eqn:E6; [|discriminate]. cbn [obind] in H.
  apply block_inv in E0 as [_ [_ ->]]. apply setBlock_inv in E1 as [A1 [A2 [_ [_ ->]]]].
  apply block_inv in E2 as [_ [_ ->]]. apply block_inv in E3 as [_ [_ ->]].
  apply mmul_inv in E4 as [B1 ->]. apply mmul_inv in E5 as [B2 ->]. apply madd_inv in E6 as [B3 [B4 ->]].
  apply setBlock_inv in H as [C1 [C2 [C3 [C4 ->]]]]. cbn [rows cols at_ mtrans] in *.
  do 2 (split; [reflexivity|]). intros RQ CQ. rewrite RQ, CQ in *.
  replace (xd + fu - fu) with xd in * by lia.
  set (Quu := Mx fu fu _) in *.
  exists Quu. split; [|split; [exact C3|split; [exact C4|split; [symmetry; exact B1|split; [exact B2|split; [|split]]]]]].
  - unfold Quu, uu_block. repeat (split; [reflexivity|]). cbn [rows cols at_]. intros i j Hi Hj.
    rewrite (proj2 (Nat.ltb_ge (xd + j) (0 + xd))) by lia. rewrite andb_false_r. reflexivity.
  - intros i j H1 H2 H3. rewrite (proj2 (Nat.ltb_ge j (0 + xd))) by lia. rewrite !andb_false_r. reflexivity.
  - intros i j H1 H2 H3. rewrite (proj2 (Nat.ltb_ge i (0 + xd))) by lia. rewrite !andb_false_r. cbn [andb].
    rewrite (proj2 (Nat.leb_le xd i)), (proj2 (Nat.ltb_lt i (xd + fu))), (proj2 (Nat.ltb_lt j (0 + xd))) by lia.
    change (0 <=? j) with true. cbn [andb]. rewrite Nat.add_0_l. f_equal; lia.
  - intros i j H1 H2. change (0 <=? i) with true. change (0 <=? j) with true.
    rewrite (proj2 (Nat.ltb_lt i (0 + xd))), (proj2 (Nat.ltb_lt j (0 + xd))) by lia. cbn [andb]. rewrite !Nat.sub_0_r.
    f_equal. rewrite B2. apply sum_ext. intros k Hk. f_equal.
    + apply sum_ext. intros l Hl. f_equal. rewrite (proj2 (Nat.ltb_ge (xd + l) (0 + xd))) by lia. rewrite andb_false_r. reflexivity.
    + rewrite (proj2 (Nat.ltb_ge (xd + k) (0 + xd))) by lia. rewrite andb_false_r. reflexivity.
Qed.

Lemma is_form_spec inv is ps w q' : is_makeQPForm inv is ps w = Some q' ->
  let m := ctl w in let q := m_qp m in let xd := xDim ps in let fu := fullUDim ps in
  exists Q c lb ub,
  is_sum_costs ps (wcost w) (spCost m) (qQ q, qc q) = Some (Q, c) /\
  (exists s, is_stack_rows xd fu (wcon w) (spEq m) (qAeq q, qbeq q, 0) = Some (qAeq q', qbeq q', s)) /\
  (exists s, is_stack_rows xd fu (wcon w) (spIneq m) (qAineq q, qbineq q, 0) = Some (qAineq q', qbineq q', s)) /\
  (exists s, stack_bounds (wcon w) (spB m) (qlb q, qub q, xd) = Some (lb, ub, s)) /\
  is_corner inv xd fu (isR is) Q = Some (qQ q') /\ setSeg c 0 xd (isr is) = Some (qc q') /\
  setSeg lb 0 xd (isx0lb is) = Some (qlb q') /\ setSeg ub 0 xd (isx0ub is) = Some (qub q').
Proof.
  unfold is_makeQPForm. cbv zeta. intro H.
  destruct (is_sum_costs _ _ _ _) as [[Q c]|] eqn:E1; [|discriminate]. cbn [obind] in H.
  destruct (is_stack_rows _ _ _ (spEq _) _) as [[[A b] s]|] eqn:E2; [|discriminate]. cbn [obind] in H.
  destruct (is_stack_rows _ _ _ (spIneq _) _) as [[[A' b'] s']|] eqn:E3; [|discriminate]. cbn [obind] in H.
  destruct (stack_bounds _ _ _) as [[[lb ub] s'']|] eqn:E4; [|discriminate]. cbn [obind] in H.
  destruct (is_corner _ _ _ _ _) as [Q'|] eqn:E5; [|discriminate]. cbn [obind] in H. unfold setHead in H.
  destruct (setSeg c _ _ _) as [c'|] eqn:E6; [|discriminate]. cbn [obind] in H.
  destruct (setSeg lb _ _ _) as [lb'|] eqn:E7; [|discriminate]. cbn [obind] in H.
  destruct (setSeg ub _ _ _) as [ub'|] eqn:E8; [|discriminate]. cbn [obind] in H.
  injection H as <-. cbn. exists Q, c, lb, ub. eauto 15.
Qed.

(** ** Q and c always have the same size *)
Definition qp_square (q : qp) : Prop := rows (qQ q) = vsize (qc q) /\ cols (qQ q) = vsize (qc q).

Lemma build_sizes e w w1 : build e w = Some w1 ->
  rows (qQ (m_qp (ctl w1))) = rows (qQ (m_qp (ctl w))) /\ cols (qQ (m_qp (ctl w1))) = cols (qQ (m_qp (ctl w))) /\
  vsize (qc (m_qp (ctl w1))) = vsize (qc (m_qp (ctl w))) /\ vsize (qlb (m_qp (ctl w1))) = vsize (qlb (m_qp (ctl w))) /\
  vsize (qub (m_qp (ctl w1))) = vsize (qub (m_qp (ctl w))).
Proof.
  intro H. apply build_parts in H as [p [ps [wc [wk [q [Ep [Eu [F1 [F2 [Ec [Ek [Eq ->]]]]]]]]]]]]. cbv zeta in Eq.
  destruct (m_is (ctl w)) as [is|] eqn:Ei.
  - apply is_form_spec in Eq. cbn in Eq. destruct Eq as [Q [c [lb [ub [S1 [_ [_ [[s S4] [S5 [S6 [S7 S8]]]]]]]]]]].
    apply is_sum_costs_spec in S1 as [A1 [A2 [A3 _]]]. apply is_corner_spec in S5 as [B1 [B2 _]].
    apply setSeg_inv in S6 as [_ [_ S6]]. apply setSeg_inv in S7 as [_ [_ S7]]. apply setSeg_inv in S8 as [_ [_ S8]].
    apply stack_bounds_spec in S4 as [_ [_ [D1 [D2 _]]]].
    cbn in *. rewrite S6, S7, S8. cbn. repeat split; congruence.
  - apply lmpc_form_spec in Eq. cbn in Eq. destruct Eq as [[[Q c] [S1 [X1 X2]]] [_ [_ [s S4]]]].
    apply sum_costs_spec in S1 as [A1 [A2 [A3 _]]]. apply stack_bounds_spec in S4 as [_ [_ [D1 [D2 _]]]].
    cbn in *. repeat split; congruence.
Qed.

(** the problem left by solve is the one it built *)
Lemma solve_qp e w b w' : solve e w = Some (b, w') ->
  exists w1, build e w = Some w1 /\ m_qp (ctl w') = m_qp (ctl w1) /\
    nrEq (ctl w') = nrEq (ctl w1) /\ nrIneq (ctl w') = nrIneq (ctl w1) /\
    m_is (ctl w') = m_is (ctl w1) /\ m_ps (ctl w') = m_ps (ctl w1) /\
    wps w' = wps w1 /\ wcon w' = wcon w1 /\ wcost w' = wcost w1 /\
    s_qp e (vsize (qc (m_qp (ctl w1)))) (nrEq (ctl w1)) (nrIneq (ctl w1)) (m_qp (ctl w1)) = (b, m_sol (ctl w')).
Proof.
  intro H. destruct (solve_parts _ _ _ _ H) as [w1 [r [Eb [Es [w4 [E4 ->]]]]]]. cbv zeta in E4.
  exists w1. split; [exact Eb|]. destruct b.
  - unfold updateResults in E4. unfold checkDelete in E4. cbn in E4.
    destruct (m_ps (ctl w1)) as [p|] eqn:Ep; [|discriminate].
    destruct (m_is (ctl w1)) as [is|] eqn:Ei; unfold obind in E4; break_match E4; injection E4 as <-; cbn; rewrite ?Ep, ?Ei; auto 15.
  - injection E4 as <-. cbn. auto 15.
Qed.

Lemma square_step w o w' : qp_square (m_qp (ctl w)) -> step w o = Ok w' \/ (exists x, step w o = Throw x w') ->
  qp_square (m_qp (ctl w')).
Proof.
  intros S H. unfold step in H.
  assert (CM : forall ps m m', clearConstraintMatrices ps m = Some m' -> qp_square (m_qp m) -> qp_square (m_qp m')).
  { intros ps m m' X. unfold clearConstraintMatrices in X. destruct (fits_int _); [|discriminate]. injection X as <-. auto. }
  assert (IC : forall j w p w', initializeController j w p = Some w' -> qp_square (m_qp (ctl w'))).
  { intros j v p v' X. unfold initializeController in X. destruct (clearConstraintMatrices _ _) as [m|] eqn:E; [|discriminate].
    cbn [obind] in X. injection X as <-. cbn. split; cbn; rewrite vresize_size; [apply mresize_rows|apply mresize_cols]. }
  assert (OM : forall A (f : A -> world) o, (forall a, m_qp (ctl (f a)) = m_qp (ctl w)) ->
     out_map f o = Ok w' \/ (exists x, out_map f o = Throw x w') -> qp_square (m_qp (ctl w'))).
  { intros A f [a|x a|] Hf [X|[y X]]; cbn in X; try discriminate X; injection X; intros; subst; rewrite Hf; exact S. }
  destruct o; unfold with_con, with_cost in H;
    repeat match type of H with context [if ?b then _ else _] => destruct b end;
    try (destruct H as [H|[? H]]; try discriminate H; injection H; intros; subst; exact S);
    try (eapply OM; [|exact H]; intros; reflexivity).
  - (* construct *)
    destruct H as [H|[? H]]; unfold of_opt in H; destruct (construct j k r w) as [v|] eqn:E; try discriminate H.
    injection H as <-. destruct k; cbn [construct] in E; try (injection E as <-; split; reflexivity); eapply IC; exact E.
  - destruct H as [H|[? H]]; unfold of_opt in H; destruct (initializeController j w p) as [v|] eqn:E; try discriminate H.
    injection H as <-. eapply IC; exact E.
  - unfold addCost in H. destruct (m_ps (ctl w)); [|destruct H as [H|[? H]]; discriminate H].
    destruct (initializeCost _ _ _); destruct H as [H|[? H]]; try discriminate H; injection H; intros; subst; exact S.
  - unfold addConstraint in H. destruct (m_ps (ctl w)); [|destruct H as [H|[? H]]; discriminate H].
    destruct (initializeConstraint _ _ _) as [c|x c|]; destruct H as [H|[? H]]; try discriminate H.
    + unfold of_opt in H. destruct (addConstraintByType _ _) as [v|] eqn:E; [|discriminate]. injection H as <-.
      unfold addConstraintByType in E. cbn in E. destruct (constraintType _); try (destruct (fits_int _); [|discriminate]); injection E as <-; exact S.
    + unfold of_opt in H. destruct (addConstraintByType _ _); discriminate H.
    + injection H; intros; subst; exact S.
  - unfold removeCost in H. destruct (erase_first _ _); destruct H as [H|[? H]]; try discriminate H; injection H as <-; exact S.
  - destruct H as [H|[? H]]; unfold of_opt in H; destruct (removeConstraint w i) as [v|] eqn:E; try discriminate H.
    injection H as <-. unfold removeConstraint in E. destruct (erase_first i (spC (ctl w))); [|injection E as <-; exact S].
    destruct (constraintType _); (destruct (erase_first i _); [|discriminate]); cbn [obind] in E; injection E as <-; exact S.
  - destruct H as [H|[? H]]; unfold of_opt in H; destruct (clearConstraints w) as [v|] eqn:E; try discriminate H.
    injection H as <-. unfold clearConstraints in E. destruct (m_ps (ctl w)); [|discriminate].
    destruct (clearConstraintMatrices _ _) as [m|] eqn:E1; [|discriminate]. cbn [obind] in E. injection E as <-.
    eapply CM; [exact E1|]. exact S.
  - destruct (solve e w) as [[b v]|] eqn:E; [|destruct H as [H|[? H]]; discriminate H].
    destruct H as [H|[? H]]; try discriminate H. injection H as <-.
    apply solve_qp in E as [w1 [Eb [-> _]]]. apply build_sizes in Eb. destruct S. unfold qp_square. intuition congruence.
  - destruct H as [H|[? H]]; try discriminate H. injection H as <-. unfold resetX0Cost. cbn. destruct (m_is (ctl w)); exact S.
  - destruct H as [H|[? H]]; try discriminate H. injection H as <-. unfold resetX0Bounds. cbn. destruct (m_is (ctl w)); exact S.
Qed.

(** any property kept by every defined call holds in every reached world *)
Lemma reached_ind (P : world -> Prop) : P world0 ->
  (forall w o w', P w -> step w o = Ok w' \/ (exists x, step w o = Throw x w') -> P w') ->
  forall h w, reached h w -> P w.
Proof.
  intros H0 HS h. assert (G : forall h w w', P w -> run w h = Some w' -> P w').
  { clear h. induction h as [|o t IH]; intros w w' Hw R; cbn [run] in R; [injection R as <-; exact Hw|].
    destruct (step w o) as [v|x v|] eqn:E; [| |discriminate]; (eapply IH; [|exact R]); eapply HS; eauto. }
  intros w R. eapply G; eassumption.
Qed.
Lemma reached_square h w : reached h w -> qp_square (m_qp (ctl w)).
Proof.
  revert h w. apply reached_ind; [split; reflexivity|]. intros w o w' S H. eapply square_step; eassumption.
Qed.
