(** Properties_Assembly.v -- C28, C31, C34: the problem handed to the solver. *)
From Verif Require Import Base Eigen Spec Preview SpecApi AutoSpan Constraints Costs Controller Registry Assembly Checkers SpecController Properties_Registry.

(** ** C28 for LMPC: [n] decision variables are the stacked controls *)
Theorem C28_assembly : forall h w p e b w',
  reached h w -> m_ps (ctl w) = Some p -> m_is (ctl w) = None -> solve e w = Some (b, w') ->
  let q := m_qp (ctl w') in
  let n := vsize (qc q) in
  let nr := fun i => nrConstr (wcon w' i) in
  (* what the solver is told and given, and that its answer is the answer of solve *)
  s_qp e n (rows (qAeq q)) (rows (qAineq q)) q = (b, m_sol (ctl w')) /\
  nrEq (ctl w') = rows (qAeq q) /\ nrIneq (ctl w') = rows (qAineq q) /\
  (* the cost: 1e-6 I plus every registered cost *)
  rows (qQ q) = n /\ cols (qQ q) = n /\
  (forall k, In k (spCost (ctl w)) -> rows (kQ (wcost w' k)) = n /\ cols (kQ (wcost w' k)) = n /\ vsize (kc (wcost w' k)) = n) /\
  (forall i j, at_ (qQ q) i j = ((if Nat.eqb i j then q1em6 else 0)
                                 + lsum (spCost (ctl w)) (fun k => at_ (kQ (wcost w' k)) i j))%Qc) /\
  (forall i, vget (qc q) i = lsum (spCost (ctl w)) (fun k => vget (kc (wcost w' k)) i)) /\
  (* the constraints: the rows of every registered equality / inequality *)
  stacked nr (fun i => at_ (cA (wcon w' i))) (fun i => vget (cb (wcon w' i))) (fullUDim (wps w' p))
    (spEq (ctl w)) (qAeq q) (qbeq q) /\
  stacked nr (fun i => at_ (cA (wcon w' i))) (fun i => vget (cb (wcon w' i))) (fullUDim (wps w' p))
    (spIneq (ctl w)) (qAineq q) (qbineq q) /\
  (* the bounds *)
  (spB (ctl w) = [] -> qlb q = qlb (m_qp (ctl w)) /\ qub q = qub (m_qp (ctl w))) /\
  (forall i, spB (ctl w) = [i] -> nr i = vsize (qlb (m_qp (ctl w))) -> nr i = vsize (qub (m_qp (ctl w))) ->
     veq (qlb q) (clb (wcon w' i)) /\ veq (qub q) (cub (wcon w' i))).
Proof.
  intros h w p e b w' R Ep Ei H. cbv zeta. apply reached_square in R as [SQ1 SQ2].
  destruct (solve_qp _ _ _ _ H) as [w1 [Eb [-> [-> [-> [_ [_ [-> [-> [-> Es]]]]]]]]]].
  pose proof (build_sizes _ _ _ Eb) as [Z1 [Z2 [Z3 _]]].
  apply build_parts in Eb as [p' [ps [wc [wk [q [Ep' [Eu [F1 [F2 [Ec [Ek [Eq E1]]]]]]]]]]]]. cbv zeta in Eq, E1.
  rewrite Ep in Ep'. injection Ep' as <-. rewrite Ei in Eq. subst w1. cbn [ctl m_qp set_qpm wcost wcon wps] in *.
  replace (upd (wps w) p ps p) with ps by (unfold upd; rewrite Nat.eqb_refl; reflexivity).
  assert (TR : forall l, total_rows (wcon w) l = rows_of (fun i => nrConstr (wc i)) l).
  { intro l. rewrite total_rows_of. apply rows_of_ext. intros i _. symmetry. apply (update_cons_nr _ _ _ _ Ec). }
  apply lmpc_form_spec in Eq. destruct Eq as [[[Q c] [S1 [X1 X2]]] [[s2 S2] [[s3 S3] [s4 S4]]]].
  cbn [fst snd wcost wcon ctl spCost spEq spIneq spB m_qp updateConstraintMatrixSize set_qpm set_lists qQ qc qAeq qbeq qAineq qbineq qlb qub resetQP nrEq nrIneq] in *.
  subst Q c. apply sum_costs_spec in S1. cbn [rows cols vsize at_ vget mscal mident vconst] in S1.
  destruct S1 as [A1 [A2 [A3 [A4 [A5 A6]]]]].
  assert (OS : optSize (set_lists (set_qpm (ctl w) (resetQP (m_qp (ctl w)))) (total_rows (wcon w) (spEq (ctl w)))
           (total_rows (wcon w) (spIneq (ctl w))) (spC (ctl w)) (spEq (ctl w)) (spIneq (ctl w)) (spB (ctl w))) ps = fullUDim ps).
  { unfold optSize. cbn. rewrite Ei. reflexivity. }
  rewrite OS in S2, S3.
  apply (stack_stacked _ _ _ _ _ (stack_rows_writes wc (fullUDim ps))) in S2;
    [|rewrite mresize_rows; apply TR|apply mresize_cols|rewrite vresize_size; apply TR].
  apply (stack_stacked _ _ _ _ _ (stack_rows_writes wc (fullUDim ps))) in S3;
    [|rewrite mresize_rows; apply TR|apply mresize_cols|rewrite vresize_size; apply TR].
  assert (NE : total_rows (wcon w) (spEq (ctl w)) = rows (qAeq q)) by (rewrite TR; symmetry; apply S2).
  assert (NI : total_rows (wcon w) (spIneq (ctl w)) = rows (qAineq q)) by (rewrite TR; symmetry; apply S3).
  cbn in Es. rewrite NE, NI in Es. split; [exact Es|].
  split; [exact NE|]. split; [exact NI|]. split; [congruence|]. split; [congruence|].
  split. { intros k Hk. destruct (A4 k Hk) as [B1 [B2 B3]]. repeat split; congruence. }
  split. { intros i j. rewrite A5. f_equal. destruct (Nat.eqb i j); ring. }
  split. { intro i. rewrite A6. ring. }
  split; [exact S2|]. split; [exact S3|].
  pose proof S4 as S4'. apply stack_bounds_spec in S4'. destruct S4' as [D1 [D2 [D3 [D4 [D5 [D6 D7]]]]]]. split.
  - intro E. rewrite E in S4. cbn in S4. injection S4 as <- <- <-. auto.
  - intros i E V1 V2. rewrite E in *. destruct (D5 i) as [L1 L2]; [left; reflexivity|].
    split; (split; [congruence|]); intros r Hr; destruct (D6 [] i [] eq_refl r) as [L3 L4]; try assumption; congruence.
Qed.
Print Assumptions C28_assembly.

(** a controller with two costs (one registered twice), two equalities, two inequalities and a bound *)
Definition ex28 : list op := h_start ++
  [ONewCon d_traj; ONewCon d_eq; ONewCon d_eq; ONewCon d_bound; ONewCon (DTraj (mlit [[1; 1]; [0; 1]]%Z) (elit [fin 50; fin 60]) true);
   ONewCost d_cost; ONewCost (DCtrlC (mlit [[1]]%Z) (vlit [2]%Z));
   OAddCon j0 0; OAddCon j0 1; OAddCon j0 2; OAddCon j0 3; OAddCon j0 4; OAddCost j0 0; OAddCost j0 1; OAddCost j0 1].
Example C28_example :
  match run world0 ex28 with
  | Some w => match m_ps (ctl w), m_is (ctl w), solve env_ok w with
              | Some _, None, Some (true, w') =>
                  let q := m_qp (ctl w') in
                  Nat.eqb (rows (qAeq q)) 2 && Nat.eqb (rows (qAineq q)) 12 && Nat.eqb (vsize (qc q)) 3 &&
                  Nat.eqb (length (spCost (ctl w))) 3 && Nat.eqb (length (spB (ctl w))) 1
              | _, _, _ => false end
  | None => false end = true.
Proof. vm_compute. reflexivity. Qed.

(** ** C28 for InitialStateLMPC: the decision variables are the initial state, then the stacked controls *)
Theorem C28_assembly_initial_state : forall h w p is e b w',
  reached h w -> m_ps (ctl w) = Some p -> m_is (ctl w) = Some is -> solve e w = Some (b, w') ->
  let ps := wps w' p in
  let xd := xDim ps in
  let fu := fullUDim ps in
  let n := xd + fu in
  let q := m_qp (ctl w') in
  let nr := fun i => nrConstr (wcon w' i) in
  let costE := fun i j => lsum (spCost (ctl w)) (fun k => at_ (kE (wcost w' k)) i j) in
  let costQ := fun i j => ((if Nat.eqb i j then q1em6 else 0) + lsum (spCost (ctl w)) (fun k => at_ (kQ (wcost w' k)) i j))%Qc in
  (* the controller has been initialized for a system of these dimensions *)
  vsize (qc (m_qp (ctl w))) = n ->
  s_qp e n (rows (qAeq q)) (rows (qAineq q)) q = (b, m_sol (ctl w')) /\
  nrEq (ctl w') = rows (qAeq q) /\ nrIneq (ctl w') = rows (qAineq q) /\
  (* Q = [R + E Q^-1 E', E; E', Q],  c = [r; f] *)
  rows (qQ q) = n /\ cols (qQ q) = n /\ vsize (qc q) = n /\
  (forall i j, i < fu -> j < fu -> at_ (qQ q) (xd + i) (xd + j) = costQ i j) /\
  (forall i j, i < xd -> j < fu -> at_ (qQ q) i (xd + j) = costE i j /\ at_ (qQ q) (xd + j) i = costE i j) /\
  (exists Quu, rows Quu = fu /\ cols Quu = fu /\ (forall i j, i < fu -> j < fu -> at_ Quu i j = costQ i j) /\
     rows (s_inv e Quu) = fu /\ cols (s_inv e Quu) = fu /\
     forall i j, i < xd -> j < xd -> at_ (qQ q) i j =
       (at_ (isR is) i j + sum fu (fun k => sum fu (fun l => costE i l * at_ (s_inv e Quu) l k) * costE j k))%Qc) /\
  (forall i, i < xd -> vget (qc q) i = vget (isr is) i) /\
  (forall i, i < fu -> vget (qc q) (xd + i) = lsum (spCost (ctl w)) (fun k => vget (kf (wcost w' k)) i)) /\
  (* the constraints: the rows [Y | A], with right-hand side z *)
  stacked nr (fun i r j => if j <? xd then at_ (cY (wcon w' i)) r j else at_ (cA (wcon w' i)) r (j - xd))
    (fun i => vget (cz (wcon w' i))) n (spEq (ctl w)) (qAeq q) (qbeq q) /\
  stacked nr (fun i r j => if j <? xd then at_ (cY (wcon w' i)) r j else at_ (cA (wcon w' i)) r (j - xd))
    (fun i => vget (cz (wcon w' i))) n (spIneq (ctl w)) (qAineq q) (qbineq q) /\
  (* the bounds: those of the initial state, then those of the controls *)
  vsize (qlb q) = vsize (qlb (m_qp (ctl w))) /\ vsize (qub q) = vsize (qub (m_qp (ctl w))) /\
  (forall i, i < xd -> vget (qlb q) i = vget (isx0lb is) i /\ vget (qub q) i = vget (isx0ub is) i) /\
  (spB (ctl w) = [] -> forall i, xd <= i -> vget (qlb q) i = vget (qlb (m_qp (ctl w))) i /\ vget (qub q) i = vget (qub (m_qp (ctl w))) i) /\
  (forall k, spB (ctl w) = [k] -> forall i, i < nr k ->
     vget (qlb q) (xd + i) = vget (clb (wcon w' k)) i /\ vget (qub q) (xd + i) = vget (cub (wcon w' k)) i).
Proof.
  intros h w p is e b w' R Ep Ei H. cbv zeta. apply reached_square in R as [SQ1 SQ2].
  destruct (solve_qp _ _ _ _ H) as [w1 [Eb [-> [-> [-> [_ [_ [-> [-> [-> Es]]]]]]]]]].
  pose proof (build_sizes _ _ _ Eb) as [Z1 [Z2 [Z3 [Z4 Z5]]]].
  apply build_parts in Eb as [p' [ps [wc [wk [q [Ep' [Eu [F1 [F2 [Ec [Ek [Eq E1]]]]]]]]]]]]. cbv zeta in Eq, E1.
  rewrite Ep in Ep'. injection Ep' as <-. rewrite Ei in Eq. subst w1. cbn [ctl m_qp set_qpm wcost wcon wps] in *.
  replace (upd (wps w) p ps p) with ps by (unfold upd; rewrite Nat.eqb_refl; reflexivity). intro Dm.
  assert (TR : forall l, total_rows (wcon w) l = rows_of (fun i => nrConstr (wc i)) l).
  { intro l. rewrite total_rows_of. apply rows_of_ext. intros i _. symmetry. apply (update_cons_nr _ _ _ _ Ec). }
  apply is_form_spec in Eq. destruct Eq as [Q [c [lb [ub [S1 [[s2 S2] [[s3 S3] [[s4 S4] [S5 [S6 [S7 S8]]]]]]]]]]].
  cbn [fst snd wcost wcon ctl spCost spEq spIneq spB m_qp updateConstraintMatrixSize set_qpm set_lists qQ qc qAeq qbeq qAineq qbineq qlb qub resetQP nrEq nrIneq] in *.
  apply is_sum_costs_spec in S1. cbn [rows cols vsize at_ vget mscal mident vconst] in S1.
  destruct S1 as [A1 [A2 [A3 A4]]]. specialize (A4 ltac:(congruence) ltac:(congruence) Dm). destruct A4 as [A4 [A5 A6]].
  apply is_corner_spec in S5 as [B1 [B2 B3]]. specialize (B3 ltac:(congruence) ltac:(congruence)).
  destruct B3 as [Quu [B3 [B4 [B5 [B6 [B7 [B8 [B9 B10]]]]]]]].
  assert (OS : optSize (set_lists (set_qpm (ctl w) (resetQP (m_qp (ctl w)))) (total_rows (wcon w) (spEq (ctl w)))
           (total_rows (wcon w) (spIneq (ctl w))) (spC (ctl w)) (spEq (ctl w)) (spIneq (ctl w)) (spB (ctl w))) ps = xDim ps + fullUDim ps).
  { unfold optSize. cbn. rewrite Ei. reflexivity. }
  rewrite OS in S2, S3.
  apply (stack_stacked _ _ _ _ _ (is_stack_rows_writes wc (xDim ps) (fullUDim ps))) in S2;
    [|rewrite mresize_rows; apply TR|apply mresize_cols|rewrite vresize_size; apply TR].
  apply (stack_stacked _ _ _ _ _ (is_stack_rows_writes wc (xDim ps) (fullUDim ps))) in S3;
    [|rewrite mresize_rows; apply TR|apply mresize_cols|rewrite vresize_size; apply TR].
  assert (NE : total_rows (wcon w) (spEq (ctl w)) = rows (qAeq q)) by (rewrite TR; symmetry; apply S2).
  assert (NI : total_rows (wcon w) (spIneq (ctl w)) = rows (qAineq q)) by (rewrite TR; symmetry; apply S3).
  assert (EE : forall i j, i < xDim ps -> j < fullUDim ps ->
     at_ Q i (xDim ps + j) = lsum (spCost (ctl w)) (fun k => at_ (kE (wk k)) i j)).
  { intros i j Hi Hj. rewrite A5 by lia. rewrite (proj2 (Nat.eqb_neq i (xDim ps + j))) by lia.
    transitivity (lsum (spCost (ctl w)) (fun k => is_entry (xDim ps) (wk k) i (xDim ps + j))); [ring|].
    apply lsum_ext. intros k _. unfold is_entry. rewrite (proj2 (Nat.ltb_ge _ _)), (proj2 (Nat.ltb_lt i _)) by lia. f_equal. lia. }
  assert (QQ : forall i j, i < fullUDim ps -> j < fullUDim ps -> at_ Q (xDim ps + i) (xDim ps + j)
     = ((if Nat.eqb i j then q1em6 else 0) + lsum (spCost (ctl w)) (fun k => at_ (kQ (wk k)) i j))%Qc).
  { intros i j Hi Hj. rewrite A5 by lia. f_equal.
    - destruct (Nat.eqb_spec i j) as [->|]; [rewrite Nat.eqb_refl|rewrite (proj2 (Nat.eqb_neq (xDim ps + i) _)) by lia]; ring.
    - apply lsum_ext. intros k _. unfold is_entry. rewrite !(proj2 (Nat.ltb_ge _ _)) by lia. f_equal; lia. }
  cbn in Es. rewrite NE, NI in Es. split; [rewrite Z3 in Es; rewrite Dm in Es; exact Es|].
  split; [exact NE|]. split; [exact NI|]. split; [congruence|]. split; [congruence|]. split; [congruence|].
  split. { intros i j Hi Hj. rewrite B8 by lia. apply QQ; assumption. }
  split. { intros i j Hi Hj. rewrite B8, B9 by lia. rewrite EE by assumption. auto. }
  split.
  { exists Quu. destruct B3 as [M1 [M2 M3]]. cbn in M1, M2, M3.
    do 2 (split; [assumption|]). split; [|split; [exact B6|split; [exact B7|]]].
    - intros i j Hi Hj. rewrite M3 by congruence. apply QQ; assumption.
    - intros i j Hi Hj. rewrite B10 by assumption. f_equal. apply sum_ext. intros k Hk. rewrite EE by assumption. f_equal.
      apply sum_ext. intros l Hl. rewrite EE by assumption. reflexivity. }
  apply setSeg_inv in S6 as [U1 [U2 U3]]. apply setSeg_inv in S7 as [V1 [V2 V3]]. apply setSeg_inv in S8 as [W1 [W2 W3]].
  apply stack_bounds_spec in S4. destruct S4 as [D1 [D2 [D3 [D4 [D5 [D6 D7]]]]]].
  split. { intros i Hi. rewrite U3. cbn [vget]. change (0 <=? i) with true.
    rewrite (proj2 (Nat.ltb_lt i (0 + xDim ps))) by lia. cbn [andb]. f_equal. lia. }
  split. { intros i Hi. rewrite U3. cbn [vget]. rewrite (proj2 (Nat.ltb_ge (xDim ps + i) (0 + xDim ps))) by lia.
    rewrite andb_false_r, A6 by lia. transitivity (lsum (spCost (ctl w)) (fun k => is_lin (xDim ps) (wk k) (xDim ps + i))); [ring|].
    apply lsum_ext. intros k _. unfold is_lin. rewrite (proj2 (Nat.ltb_ge _ _)) by lia. f_equal. lia. }
  split; [exact S2|]. split; [exact S3|]. split; [exact Z4|]. split; [exact Z5|].
  split. { intros i Hi. rewrite V3, W3. cbn [vget]. change (0 <=? i) with true.
    rewrite (proj2 (Nat.ltb_lt i (0 + xDim ps))) by lia. cbn [andb]. rewrite Nat.sub_0_r. auto. }
  assert (T : forall i, xDim ps <= i -> vget (qlb q) i = vget lb i /\ vget (qub q) i = vget ub i).
  { intros i Hi. rewrite V3, W3. cbn [vget]. rewrite (proj2 (Nat.ltb_ge i (0 + xDim ps))) by lia. rewrite andb_false_r. auto. }
  split.
  - intros E i Hi. destruct (T i Hi) as [-> ->]. apply D7. right. rewrite E in D1. unfold rows_of in D1. cbn in D1. lia.
  - intros k E i Hi. destruct (T (xDim ps + i) ltac:(lia)) as [-> ->]. rewrite E in *.
    destruct (D6 [] k [] eq_refl i Hi) as [L3 L4]. unfold rows_of in L3, L4. cbn in L3, L4. rewrite Nat.add_0_r in L3, L4. auto.
Qed.
Print Assumptions C28_assembly_initial_state.
Definition h_start_is : list op := [OPs 0 (PSystem exA exB exd exx0 3); OConstruct j0 (CISps 0) qempty].
Definition ex28is : list op := h_start_is ++
  [ONewCon d_traj; ONewCon d_eq; ONewCon d_bound; ONewCost d_cost; ONewCost (DCtrlC (mlit [[1]]%Z) (vlit [2]%Z));
   OAddCon j0 0; OAddCon j0 1; OAddCon j0 2; OAddCost j0 0; OAddCost j0 1].
Example C28_example_initial_state :
  match run world0 ex28is with
  | Some w => match m_ps (ctl w), m_is (ctl w), solve env_ok w with
              | Some p, Some _, Some (true, w') =>
                  let q := m_qp (ctl w') in
                  Nat.eqb (vsize (qc (m_qp (ctl w)))) (xDim (wps w' p) + fullUDim (wps w' p)) &&
                  Nat.eqb (rows (qAeq q)) 1 && Nat.eqb (rows (qAineq q)) 4 && Nat.eqb (vsize (qc q)) 5
              | _, _, _ => false end
  | None => false end = true.
Proof. vm_compute. reflexivity. Qed.

(** ** C31: clearConstraints *)

(** no constraint is registered and the controls are unbounded *)
Definition unconstrained (w : world) : Prop :=
  spC (ctl w) = [] /\ spEq (ctl w) = [] /\ spIneq (ctl w) = [] /\ spB (ctl w) = [] /\
  nrEq (ctl w) = 0 /\ nrIneq (ctl w) = 0 /\
  (m_is (ctl w) = None -> forall i, (i < vsize (qlb (m_qp (ctl w))) -> vget (qlb (m_qp (ctl w))) i = Fin (- DBL_MAX)%Qc) /\
                                    (i < vsize (qub (m_qp (ctl w))) -> vget (qub (m_qp (ctl w))) i = Fin DBL_MAX)).
Definition adds_constraint (o : op) : bool := match o with OAddCon _ _ => true | _ => false end.

Lemma clearMatrices_free ps m m' : clearConstraintMatrices ps m = Some m' ->
  m' = set_qpm m (QP (qQ (m_qp m)) (qc (m_qp m)) (mzero 0 (optSize m ps)) eempty (mzero 0 (optSize m ps)) eempty
                     (vconst (optSize m ps) no_lower) (vconst (optSize m ps) no_upper)).
Proof. unfold clearConstraintMatrices. destruct (fits_int _); [|discriminate]. intro H. injection H as <-. reflexivity. Qed.

Lemma build_unconstrained e w w1 : unconstrained w -> build e w = Some w1 ->
  unconstrained w1 /\ rows (qAeq (m_qp (ctl w1))) = 0 /\ rows (qAineq (m_qp (ctl w1))) = 0 /\
  vsize (qbeq (m_qp (ctl w1))) = 0 /\ vsize (qbineq (m_qp (ctl w1))) = 0.
Proof.
  intros [U1 [U2 [U3 [U4 [U5 [U6 U7]]]]]] H.
  apply build_parts in H as [p [ps [wc [wk [q [Ep [Eu [F1 [F2 [Ec [Ek [Eq ->]]]]]]]]]]]]. cbv zeta in Eq.
  unfold unconstrained. cbn [ctl m_qp set_qpm updateConstraintMatrixSize set_lists spC spEq spIneq spB nrEq nrIneq m_is].
  destruct (m_is (ctl w)) as [is|] eqn:Ei.
  - apply is_form_spec in Eq. cbn in Eq. rewrite U2, U3, U4 in *. cbn in Eq.
    destruct Eq as [Q [c [lb [ub [S1 [[s2 S2] [[s3 S3] [[s4 S4] _]]]]]]]].
    injection S2 as <- <- _. injection S3 as <- <- _. rewrite !mresize_rows, !vresize_size. cbn; repeat split; auto; discriminate.
  - apply lmpc_form_spec in Eq. cbn in Eq. rewrite U2, U3, U4 in *. cbn in Eq.
    destruct Eq as [_ [[s2 S2] [[s3 S3] [s4 S4]]]].
    injection S2 as <- <- _. injection S3 as <- <- _. injection S4 as <- <- _. rewrite !mresize_rows, !vresize_size.
    split; [|auto]. do 6 (split; [auto|]). exact U7.
Qed.
Lemma checkDelete_nil w : spC (ctl w) = [] -> spEq (ctl w) = [] -> spIneq (ctl w) = [] -> spB (ctl w) = [] ->
  exists lk, checkDelete w = set_ctl w (set_costs (set_lists (ctl w) (nrEq (ctl w)) (nrIneq (ctl w)) [] [] [] []) lk).
Proof. intros H1 H2 H3 H4. unfold checkDelete. cbv zeta. rewrite H1, H2, H3, H4. cbn. eexists. reflexivity. Qed.

Lemma solve_unconstrained e w b w' : unconstrained w -> solve e w = Some (b, w') -> unconstrained w'.
Proof.
  intros U H. destruct (solve_qp _ _ _ _ H) as [w1 [Eb [Q [N1 [N2 [I _]]]]]].
  destruct (build_unconstrained _ _ _ U Eb) as [V _]. destruct V as [U1 [U2 [U3 [U4 [U5 [U6 U7]]]]]].
  unfold unconstrained. rewrite Q, N1, N2, I. split; [|split; [|split; [|split; [|split; [assumption|split; assumption]]]]];
  destruct (solve_parts _ _ _ _ H) as [v1 [r [Eb' [_ [w4 [E4 ->]]]]]]; rewrite Eb in Eb'; injection Eb' as <-; cbv zeta in E4;
  (destruct (checkDelete_nil (set_ctl w1 (set_times (set_sol (ctl w1) r) (Some (s_t2 e - s_t1 e)%Qc) (sabTime (ctl w1)))) U1 U2 U3 U4) as [lk L];
   rewrite L in E4; destruct b;
   [destruct (updateResults_kept _ _ E4) as [[B1 [B2 [B3 [B4 _]]]] _]; cbn in *; assumption|injection E4 as <-; reflexivity]).
Qed.

Lemma step_unconstrained w o w' : unconstrained w -> adds_constraint o = false ->
  step w o = Ok w' \/ (exists x, step w o = Throw x w') -> unconstrained w'.
Proof.
  intros U A H. unfold step in H.
  assert (IC : forall j w p w', spC (ctl w) = [] -> spEq (ctl w) = [] -> spIneq (ctl w) = [] -> spB (ctl w) = [] ->
     nrEq (ctl w) = 0 -> nrIneq (ctl w) = 0 -> initializeController j w p = Some w' -> unconstrained w').
  { intros j v p v' V1 V2 V3 V4 V5 V6 X. unfold initializeController in X. destruct (clearConstraintMatrices _ _) as [m|] eqn:E; [|discriminate].
    cbn [obind] in X. injection X as <-. apply clearMatrices_free in E. subst m. unfold unconstrained. cbn. auto 10. }
  assert (OM : forall A (f : A -> world) o, (forall a, ctl (f a) = ctl w) ->
     out_map f o = Ok w' \/ (exists x, out_map f o = Throw x w') -> unconstrained w').
  { intros T f [a|x a|] Hf [X|[? X]]; cbn in X; try discriminate X; injection X; intros; subst; unfold unconstrained; rewrite Hf; exact U. }
  pose proof U as [U1 [U2 [U3 [U4 [U5 [U6 U7]]]]]].
  destruct o; try discriminate A; clear A; unfold with_con, with_cost in H;
    repeat match type of H with context [if ?b then _ else _] => destruct b end;
    try (destruct H as [H|[? H]]; try discriminate H; injection H; intros; subst; exact U);
    try (eapply OM; [|exact H]; intros; reflexivity).
  - destruct H as [H|[? H]]; unfold of_opt in H; destruct (construct j k r w) as [v|] eqn:E; try discriminate H.
    injection H as <-. destruct k; cbn [construct] in E; try (injection E as <-; unfold unconstrained; cbn; repeat (split; [reflexivity|]); intros; split; intro; lia);
      eapply IC in E; auto.
  - destruct H as [H|[? H]]; unfold of_opt in H; destruct (initializeController j w p) as [v|] eqn:E; try discriminate H.
    injection H as <-. eapply IC in E; auto.
  - unfold addCost in H. destruct (m_ps (ctl w)); [|destruct H as [H|[? H]]; discriminate H].
    destruct (initializeCost _ _ _); destruct H as [H|[? H]]; try discriminate H; injection H; intros; subst; exact U.
  - unfold removeCost in H. destruct (erase_first _ _); destruct H as [H|[? H]]; try discriminate H; injection H as <-; exact U.
  - destruct H as [H|[? H]]; unfold of_opt in H; destruct (removeConstraint w i) as [v|] eqn:E; try discriminate H.
    injection H as <-. unfold removeConstraint in E. rewrite U1 in E. injection E as <-. exact U.
  - destruct H as [H|[? H]]; unfold of_opt in H; destruct (clearConstraints w) as [v|] eqn:E; try discriminate H.
    injection H as <-. unfold clearConstraints in E. destruct (m_ps (ctl w)); [|discriminate].
    destruct (clearConstraintMatrices _ _) as [m|] eqn:E1; [|discriminate]. cbn [obind] in E. injection E as <-.
    apply clearMatrices_free in E1. subst m. unfold unconstrained. cbn. auto 10.
  - destruct (solve e w) as [[b v]|] eqn:E; [|destruct H as [H|[? H]]; discriminate H].
    destruct H as [H|[? H]]; try discriminate H. injection H as <-. eapply solve_unconstrained; eassumption.
  - destruct H as [H|[? H]]; try discriminate H. injection H as <-. unfold resetX0Cost. destruct (m_is (ctl w)) eqn:Ei; unfold unconstrained; cbn; rewrite ?Ei; repeat (split; [assumption|]); auto; discriminate.
  - destruct H as [H|[? H]]; try discriminate H. injection H as <-. unfold resetX0Bounds. destruct (m_is (ctl w)) eqn:Ei; unfold unconstrained; cbn; rewrite ?Ei; repeat (split; [assumption|]); auto; discriminate.
Qed.

(** [w1]: just after clearConstraints; [h2]: any further calls that do not add a constraint *)
Theorem C31_clear : forall h w p w1, reached h w -> m_ps (ctl w) = Some p -> clearConstraints w = Some w1 ->
  (* nothing is registered, nothing else has changed, and the bounds have the size of the problem *)
  unconstrained w1 /\ spCost (ctl w1) = spCost (ctl w) /\
  vsize (qlb (m_qp (ctl w1))) = optSize (ctl w) (wps w p) /\ vsize (qub (m_qp (ctl w1))) = optSize (ctl w) (wps w p) /\
  (forall i, i < optSize (ctl w) (wps w p) -> vget (qlb (m_qp (ctl w1))) i = Fin (- DBL_MAX)%Qc /\
                                              vget (qub (m_qp (ctl w1))) i = Fin DBL_MAX) /\
  (* every later solve passes no rows and these bounds *)
  forall h2 w2, forallb (fun o => negb (adds_constraint o)) h2 = true -> run w1 h2 = Some w2 ->
    unconstrained w2 /\
    forall e b w', solve e w2 = Some (b, w') ->
      let q := m_qp (ctl w') in
      unconstrained w' /\ rows (qAeq q) = 0 /\ vsize (qbeq q) = 0 /\ rows (qAineq q) = 0 /\ vsize (qbineq q) = 0.
Proof.
  intros h w p w1 R Ep H. unfold clearConstraints in H. rewrite Ep in H.
  destruct (clearConstraintMatrices _ _) as [m|] eqn:E1; [|discriminate]. cbn [obind] in H. injection H as <-.
  apply clearMatrices_free in E1. change (optSize (set_lists (ctl w) 0 0 [] [] [] [])) with (optSize (ctl w)) in E1.
  assert (U : unconstrained (set_ctl w m)) by (subst m; unfold unconstrained; cbn; auto 10).
  split; [exact U|]. do 3 (split; [subst m; reflexivity|]). split; [subst m; intros; split; reflexivity|].
  intro h2. revert U. generalize (set_ctl w m). clear.
  induction h2 as [|o t IH]; intros v U w2 A Rn.
  - cbn in Rn. injection Rn as <-. split; [exact U|]. intros e b w' S.
    pose proof (solve_unconstrained _ _ _ _ U S) as V.
    destruct (solve_qp _ _ _ _ S) as [v1 [Eb [Q _]]]. destruct (build_unconstrained _ _ _ U Eb) as [_ X].
    cbv zeta. rewrite Q. tauto.
  - cbn [forallb] in A. apply andb_true_iff in A as [A1 A2]. apply negb_true_iff in A1. cbn [run] in Rn.
    destruct (step v o) as [v'|x v'|] eqn:E; [| |discriminate]; (eapply IH; [|exact A2|exact Rn]); eapply step_unconstrained; eauto.
Qed.
Print Assumptions C31_clear.

(** clearing after a solve with a bound, an equality and an inequality, then two more solves *)
Definition ex31 : list op := ex28 ++ [OSolve env_ok].
Example C31_example :
  match run world0 ex31 with
  | Some w => match m_ps (ctl w), clearConstraints w with
              | Some _, Some w1 => match run w1 [OSolve env_ok; OPs 0 (PXInit (vlit [1; 1]%Z)); OSolve env_ok] with
                                   | Some w2 => Nat.eqb (length (spC (ctl w))) 5 && Nat.eqb (length (spC (ctl w2))) 0 &&
                                                Nat.eqb (vsize (qlb (m_qp (ctl w2)))) 3 && Nat.eqb (rows (qAineq (m_qp (ctl w2)))) 0
                                   | None => false end
              | _, _ => false end
  | None => false end = true.
Proof. vm_compute. reflexivity. Qed.

(** ** C34: one bound constraint is imposed; two are undefined behaviour *)
Theorem C34_single_bound_partial : forall h w p e b w' i,
  reached h w -> m_ps (ctl w) = Some p -> m_is (ctl w) = None -> solve e w = Some (b, w') ->
  spB (ctl w) = [i] ->
  vsize (qlb (m_qp (ctl w))) = nrConstr (wcon w' i) -> vsize (qub (m_qp (ctl w))) = nrConstr (wcon w' i) ->
  forall U, within_bounds (nrConstr (wcon w' i)) (vget (qlb (m_qp (ctl w')))) (vget (qub (m_qp (ctl w')))) U <->
            within_bounds (nrConstr (wcon w' i)) (vget (clb (wcon w' i))) (vget (cub (wcon w' i))) U.
Proof.
  intros h w p e b w' i R Ep Ei H EB V1 V2 U.
  destruct (C28_assembly h w p e b w' R Ep Ei H) as [_ [_ [_ [_ [_ [_ [_ [_ [_ [_ [_ X]]]]]]]]]]].
  destruct (X i EB (eq_sym V1) (eq_sym V2)) as [[S1 L] [S2 M]].
  assert (Z1 : vsize (qlb (m_qp (ctl w'))) = vsize (qlb (m_qp (ctl w))) /\ vsize (qub (m_qp (ctl w'))) = vsize (qub (m_qp (ctl w)))).
  { destruct (solve_qp _ _ _ _ H) as [w1 [Eb [-> _]]]. apply build_sizes in Eb. tauto. }
  unfold within_bounds. split; intros G k Hk; specialize (G k Hk); rewrite L, M in * by lia; exact G.
Qed.
Print Assumptions C34_single_bound_partial.

(** solve is undefined as soon as the bounds do not fit in the problem *)
Theorem C34_too_many_bounds : forall w e, m_is (ctl w) = None ->
  vsize (qlb (m_qp (ctl w))) < rows_of (fun i => nrConstr (wcon w i)) (spB (ctl w)) -> solve e w = None.
Proof.
  intros w e Ei V. destruct (solve e w) as [[b w']|] eqn:H; [|reflexivity]. exfalso.
  destruct (solve_qp _ _ _ _ H) as [w1 [Eb _]].
  apply build_parts in Eb as [p' [ps [wc [wk [q [Ep' [Eu [F1 [F2 [Ec [Ek [Eq E1]]]]]]]]]]]]. cbv zeta in Eq.
  rewrite Ei in Eq. apply lmpc_form_spec in Eq. destruct Eq as [_ [_ [_ [s S]]]]. cbn in S.
  apply stack_bounds_spec in S. destruct S as [D1 [D2 _]].
  assert (TR : rows_of (fun i => nrConstr (wcon w i)) (spB (ctl w)) = rows_of (fun i => nrConstr (wc i)) (spB (ctl w))).
  { apply rows_of_ext. intros i _. symmetry. apply (update_cons_nr _ _ _ _ Ec). }
  destruct D2 as [D2|[D2 _]]; [rewrite D2 in V; unfold rows_of in V; cbn in V|]; lia.
Qed.
Print Assumptions C34_too_many_bounds.

(** two bound constraints, both accepted by addConstraint *)
Definition ex34 : list op := h_start ++ [ONewCon d_bound; ONewCon d_bound; OAddCon j0 0; OAddCon j0 1].
Theorem C34_two_bounds_refuted :
  exists h w, reached h w /\ spB (ctl w) = [0; 1] /\ forall e, solve e w = None.
Proof.
  exists ex34.
  assert (X : match run world0 ex34 with
              | Some w => match m_is (ctl w), spB (ctl w) with
                          | None, [0; 1] => vsize (qlb (m_qp (ctl w))) <? rows_of (fun i => nrConstr (wcon w i)) (spB (ctl w))
                          | _, _ => false end
              | None => false end = true) by (vm_compute; reflexivity).
  destruct (run world0 ex34) as [w|] eqn:E; [|discriminate].
  exists w. split; [exact E|].
  destruct (m_is (ctl w)) eqn:Ei; [discriminate|].
  destruct (spB (ctl w)) as [|[|] [|[|[|]] [|]]] eqn:EB; try discriminate X.
  split; [reflexivity|]. intro e. apply C34_too_many_bounds; [exact Ei|]. rewrite EB. apply Nat.ltb_lt. exact X.
Qed.
Print Assumptions C34_two_bounds_refuted.
