(** Properties_Descent.v -- C67: what the receding horizon loop spends. *)
From Verif Require Import Base Eigen Spec Preview SpecApi PreviewProofs AutoSpan AutoSpanProofs Constraints ConstraintProofs
  SpecConstraints ConstraintMeaning Checkers Costs SpecCosts CostProofs CostMeaning Properties_Costs Controller Registry SpecController Assembly
  Results Properties_Assembly Properties_Results SpecProtocol Protocol Properties_Protocol SpecEndToEnd SpanData Properties_Registry
  EndToEnd EndToEndQP EndToEndRows EndToEndMain Convex ExactSolver Properties_EndToEnd Determined Properties_Problem StateExt
  Solvers SpecSolvers SolverProofs Existence Properties_Solvers SpecMeaning Meaning Properties_Meaning SpecTail Tail SpecLedger Ledger Properties_Ledger SpecLoop Loop Properties_Loop SpecDescent Descent.

(** the hypotheses on the loop: those of C64 (an equilibrium that satisfies every registered constraint, one of which asks that the
    plan end there), costs that the user keeps, that do not accumulate and that are sums over the steps *)
Record settles (n m N : nat) (h : list op) (w : world) (p : nat) (xe ue : nat -> Qc)
    (l : nat -> (nat -> Qc) -> (nat -> Qc) -> Qc) (f : nat -> (nat -> Qc) -> Qc) : Prop := {
  se_ready : loop_ready n m N h w p;
  se_equilibrium : equilibrium (wps w p) xe ue;
  se_representable : spB (ctl w) = [] -> representable m ue;
  se_suits : forall i d, In i (spC (ctl w)) -> con_data_of h i = Some d -> suits n m N xe ue d;
  se_ends : exists i d, In i (spC (ctl w)) /\ con_data_of h i = Some d /\ ends_at n N xe d;
  se_owned : forall i, In i (spCost (ctl w)) -> 0 < hcost w i;
  se_additive : forall i, In i (spCost (ctl w)) -> exists d, cost_data_of h i = Some d /\ per_step (wps w p) d = false /\
                  additive (wps w p) d (weights_of h i) (l i) (f i)
}.

(** ** From one turn to the next the cost of the plan goes down by what the applied step costs, up to the cost of a step at
    the equilibrium *)
Theorem C67_descent : forall n m N h w p xe ue l f g w' T,
  settles n m N h w p xe ue l f -> closed_loop p w g w' T -> follows_protocol n m N world0 (h ++ g) ->
  let plan := plan_cost (wps w p) h (spCost (ctl w)) in
  let spent := step_cost m (spCost (ctl w)) l in
  forall j x U x' U', nth_error T j = Some (x, U) -> nth_error T (S j) = Some (x', U') ->
    (plan (vget x') (vget U') + spent (vget x) (vget U) <= plan (vget x) (vget U) + spent xe ue)%Qc.
Proof.
  intros n m N h w p xe ue l f g w' T SE CL. cbv zeta. induction CL as [|g w1 T e w2 y w3 CL IH EX So Sx Px St]; intros FP j x U x' U' H1 H2.
  - destruct j; discriminate.
  - assert (FP1 : follows_protocol n m N world0 (h ++ g)) by (rewrite app_assoc in FP; eapply follows_prefix; exact FP).
    destruct (Nat.lt_trichotomy (S j) (length T)) as [L|[E|L]].
    + rewrite nth_error_app1 in H1, H2 by lia. exact (IH FP1 j x U x' U' H1 H2).
    + rewrite nth_error_app1 in H1 by lia. rewrite E, nth_error_app2, Nat.sub_diag in H2 by lia. injection H2 as <- <-.
      destruct (exists_last (l := T) ltac:(intro Z; rewrite Z in E; discriminate E)) as [T0 [[a b] ET]]. subst T.
      rewrite app_length in E. cbn in E. assert (j = length T0) as -> by lia. rewrite nth_error_app2, Nat.sub_diag in H1 by lia. injection H1 as -> ->.
      destruct SE. eapply (descent_turn n m N h w p); eassumption.
    + exfalso. assert (Q : nth_error (T ++ [(x0 (wps w1 p), m_ctrl (ctl w2))]) (S j) <> None) by congruence.
      apply nth_error_Some in Q. rewrite app_length in Q. cbn in Q. lia.
Qed.
Print Assumptions C67_descent.

(** ** Over the whole loop: the steps made before the last plan, plus the last plan, cost no more than the first plan and as
    many steps at the equilibrium *)
Fixpoint total (T : list (vec Qc * vec Qc)) (v : (nat -> Qc) -> (nat -> Qc) -> Qc) : Qc :=
  match T with [] => 0%Qc | (x, U) :: t => (v (vget x) (vget U) + total t v)%Qc end.
Lemma total_app a b v : total (a ++ b) v = (total a v + total b v)%Qc.
Proof. induction a as [|[x U] a IH]; cbn [app total]; [ring|]. rewrite IH. ring. Qed.
Lemma qz_S k : qz (Z.of_nat (S k)) = (1 + qz (Z.of_nat k))%Qc.
Proof. change (S k) with (1 + k). rewrite qz_add, qz_1. reflexivity. Qed.
Theorem C67_spent : forall n m N h w p xe ue l f g w' x U T y V,
  settles n m N h w p xe ue l f -> closed_loop p w g w' ((x, U) :: T ++ [(y, V)]) -> follows_protocol n m N world0 (h ++ g) ->
  let plan := plan_cost (wps w p) h (spCost (ctl w)) in
  let spent := step_cost m (spCost (ctl w)) l in
  (total ((x, U) :: T) spent + plan (vget y) (vget V) <= plan (vget x) (vget U) + qz (Z.of_nat (length T + 1)) * spent xe ue)%Qc.
Proof.
  intros n m N h w p xe ue l f g w' x U T y V SE CL FP plan spent.
  pose proof (C67_descent n m N h w p xe ue l f g w' _ SE CL FP) as D. cbv zeta in D. fold plan spent in D.
  assert (G : forall T x U, (forall j a b a' b', nth_error ((x, U) :: T ++ [(y, V)]) j = Some (a, b) -> nth_error ((x, U) :: T ++ [(y, V)]) (S j) = Some (a', b') ->
              (plan (vget a') (vget b') + spent (vget a) (vget b) <= plan (vget a) (vget b) + spent xe ue)%Qc) ->
            (total ((x, U) :: T) spent + plan (vget y) (vget V) <= plan (vget x) (vget U) + qz (Z.of_nat (length T + 1)) * spent xe ue)%Qc).
  { clear. induction T as [|[a b] T IH]; intros x U D.
    - specialize (D 0 x U y V eq_refl eq_refl). cbn [total length Nat.add]. change (qz (Z.of_nat 1)) with 1%Qc. rewrite Qcmult_1_l. qc_lra.
    - pose proof (D 0 x U a b eq_refl eq_refl) as D0. specialize (IH a b (fun j => D (S j))).
      cbn [length]. replace (S (length T) + 1) with (S (length T + 1)) by lia. rewrite qz_S, Qcmult_plus_distr_l, Qcmult_1_l.
      change (total ((x, U) :: (a, b) :: T) spent) with (spent (vget x) (vget U) + total ((a, b) :: T) spent)%Qc. 
      generalize dependent (qz (Z.of_nat (length T + 1)) * spent xe ue)%Qc. intros z IH. qc_lra. }
  exact (G T x U D).
Qed.
Print Assumptions C67_spent.

(** if a step at the equilibrium costs nothing and no step or last plan has a negative cost, the whole loop costs no more than the first plan *)
Theorem C67_bounded : forall n m N h w p xe ue l f g w' x U T,
  settles n m N h w p xe ue l f -> closed_loop p w g w' ((x, U) :: T) -> follows_protocol n m N world0 (h ++ g) ->
  let plan := plan_cost (wps w p) h (spCost (ctl w)) in
  let spent := step_cost m (spCost (ctl w)) l in
  spent xe ue = 0%Qc -> (forall i a b, (0 <= l i a b)%Qc) -> (forall i a, (0 <= f i a)%Qc) -> 
  (total ((x, U) :: T) spent <= plan (vget x) (vget U))%Qc /\
  (* in particular the energy of the controls applied is bounded *)
  (total ((x, U) :: T) (fun _ u => regularization m u) <= plan (vget x) (vget U))%Qc.
Proof.
  intros n m N h w p xe ue l f g w' x U T SE CL FP plan spent Z Lp Fp.
  assert (N1 : 1 <= nrUStep (wps w p) /\ fullUDim (wps w p) = uDim (wps w p) * nrUStep (wps w p) /\ uDim (wps w p) = m).
  { destruct (exists_last (l := (x, U) :: T) ltac:(discriminate)) as [T0 [[a b] ET]]. rewrite ET in CL.
    destruct (shifted_plan n m N h w p xe ue (se_ready _ _ _ _ _ _ _ _ _ _ SE) (se_equilibrium _ _ _ _ _ _ _ _ _ _ SE) (se_representable _ _ _ _ _ _ _ _ _ _ SE)
      (se_suits _ _ _ _ _ _ _ _ _ _ SE) (se_ends _ _ _ _ _ _ _ _ _ _ SE) g w' T0 a b CL FP) as [ps [R [[SD _] [_ [Um [Nn _]]]]]].
    destruct SD as [E1 [E2 [E3 [E4 [E5 E6]]]]]. rewrite <- E6, <- E2, <- E3. split; [rewrite Nn; apply (lr_sizes _ _ _ _ _ _ (se_ready _ _ _ _ _ _ _ _ _ _ SE))|].
    split; [apply (rd_fu _ R)|exact Um]. }
  destruct N1 as [N1 [FU Um]].
  assert (RP : forall k u, (0 <= regularization k u)%Qc).
  { intros k u. unfold regularization. apply qc_mul_nonneg; [discriminate|]. apply qc_mul_nonneg; [discriminate|]. apply sum_nonneg. intros. apply qc_sq_nonneg. }
  assert (LP : forall a b, (0 <= lsum (spCost (ctl w)) (fun i => l i a b))%Qc) by (intros; apply lsum_nonneg; intros; apply Lp).
  (* a plan costs at least its first step *)
  assert (PS : forall a b, (spent a b <= plan a b)%Qc).
  { intros a b. unfold spent, plan, step_cost, plan_cost. apply Qcplus_le_compat.
    - assert (Q : (0 <= lsum (spCost (ctl w)) (fun i => match cost_data_of h i with Some d => cost_value (wps w p) d (weights_of h i) a b | None => 0 end - l i a b))%Qc).
      { apply lsum_nonneg. intros i Hi. destruct (se_additive _ _ _ _ _ _ _ _ _ _ SE i Hi) as [d [E [_ [A [El Ef]]]]]. rewrite E, A.
        replace (nrUStep (wps w p)) with (1 + (nrUStep (wps w p) - 1)) at 1 by lia. rewrite sum_plus. cbn [sum].
        assert (Q0 : l i (state_of (wps w p) a b 0) (control_at (uDim (wps w p)) b 0) = l i a b) by (apply El; intros; reflexivity). rewrite Q0.
        assert (Q1 : (0 <= sum (nrUStep (wps w p) - 1) (fun k => l i (state_of (wps w p) a b (1 + k)) (control_at (uDim (wps w p)) b (1 + k))))%Qc) by (apply sum_nonneg; intros; apply Lp).
        pose proof (Fp i (state_of (wps w p) a b (nrUStep (wps w p)))) as Q2. qc_lra. }
      rewrite lsum_sub in Q. qc_lra.
    - rewrite FU, Um. unfold regularization. replace (m * nrUStep (wps w p)) with (m + m * (nrUStep (wps w p) - 1)) by nia. rewrite sum_plus.
      assert (Q : (0 <= sum (m * (nrUStep (wps w p) - 1)) (fun i => b (m + i)%nat * b (m + i)%nat))%Qc) by (apply sum_nonneg; intros; apply qc_sq_nonneg).
      assert (H : (0 <= half * (q1em6 * sum (m * (nrUStep (wps w p) - 1)) (fun i => b (m + i)%nat * b (m + i)%nat)))%Qc)
        by (apply qc_mul_nonneg; [discriminate|apply qc_mul_nonneg; [discriminate|exact Q]]).
      rewrite !Qcmult_plus_distr_r. qc_lra. }
  assert (M : (total ((x, U) :: T) spent <= plan (vget x) (vget U))%Qc).
  { destruct T as [|t T']; [cbn [total]; specialize (PS (vget x) (vget U)); qc_lra|].
    destruct (exists_last (l := t :: T') ltac:(discriminate)) as [T0 [[a b] ET]]. rewrite ET in *.
    pose proof (C67_spent n m N h w p xe ue l f g w' x U T0 a b SE CL FP) as S. cbv zeta in S. fold plan spent in S. rewrite Z, Qcmult_0_r in S.
    change ((x, U) :: T0 ++ [(a, b)]) with (((x, U) :: T0) ++ [(a, b)]). rewrite total_app. cbn [total] in S |- *. specialize (PS (vget a) (vget b)). qc_lra. }
  split; [exact M|]. eapply Qcle_trans; [|exact M]. generalize ((x, U) :: T). intro L. clear - LP. induction L as [|[a b] L IH]; cbn [total]; [apply Qcle_refl|].
  apply Qcplus_le_compat; [|exact IH]. unfold spent, step_cost. specialize (LP (vget a) (vget b)). qc_lra.
Qed.
Print Assumptions C67_bounded.

(** ** Costs that are sums over the steps: per-step control costs, target costs, and full-size trajectory costs with the same block at
    each step (what autoSpan makes of a per-step matrix, C23), whatever their last block *)
Lemma wsq_ext r a b v v' : (forall i, i < r -> a i = b i /\ v i = v' i) -> wsq r a v = wsq r b v'.
Proof. intro H. unfold wsq. f_equal. apply sum_ext. intros i Hi. destruct (H i Hi) as [-> ->]. reflexivity. Qed.
Theorem C67_additive : forall ps, 1 <= nrUStep ps -> nrXStep ps = nrUStep ps + 1 -> fullXDim ps = xDim ps * nrXStep ps -> 1 <= xDim ps -> forall w,
  (forall G p, cols G = uDim ps ->
     per_step ps (DCtrlC G p) = false /\
     additive ps (DCtrlC G p) w (fun _ u => wsq (rows G) (vget w) (fun i => apply (uDim ps) (at_ G) u i - vget p i)%Qc) (fun _ => 0%Qc)) /\
  (forall M p,
     per_step ps (DTargetC M p) = false /\
     additive ps (DTargetC M p) w (fun _ _ => 0%Qc) (fun x => wsq (rows M) (vget w) (fun i => apply (xDim ps) (at_ M) x i - vget p i)%Qc)) /\
  (forall M p r, block_diagonal r (xDim ps) (nrUStep ps) M -> same_blocks r (xDim ps) (nrUStep ps) M p w ->
     per_step ps (DTrajC M p) = false /\
     exists f, additive ps (DTrajC M p) w (fun x _ => wsq r (vget w) (fun i => apply (xDim ps) (at_ M) x i - vget p i)%Qc) f).
Proof.
  intros ps N1 NX FX Hn w. split; [|split].
  - intros G p C. split; [reflexivity|]. split; [|split].
    + intros x U. cbn [cost_value]. unfold ctrl_cost. rewrite C, Nat.eqb_refl. ring.
    + intros x x' u u' _ Hu. apply wsq_ext. intros i _. split; [reflexivity|]. unfold apply. f_equal. apply sum_ext. intros j Hj. rewrite Hu by exact Hj. reflexivity.
    + reflexivity.
  - intros M p. split; [reflexivity|]. split; [|split].
    + intros x U. cbn [cost_value]. unfold target_cost. rewrite sum_0. ring.
    + reflexivity.
    + intros x x' Hx. apply wsq_ext. intros i _. split; [reflexivity|]. unfold apply. f_equal. apply sum_ext. intros j Hj. rewrite Hx by exact Hj. reflexivity.
  - intros M p r [Rw [Cl BD]] SB. set (n := xDim ps) in *. set (N := nrUStep ps) in *.
    assert (NE : Nat.eqb (cols M) n = false) by (apply Nat.eqb_neq; rewrite Cl; nia).
    split; [exact NE|].
    exists (fun x => wsq r (fun i => vget w (N * r + i)) (fun i => apply n (fun a b => at_ M (N * r + a) (N * n + b)) x i - vget p (N * r + i)%nat)%Qc).
    split; [|split].
    + intros x U. cbn [cost_value]. unfold traj_cost. fold n. rewrite NE.
      assert (BL : forall k i, k <= N -> i < r -> apply (fullXDim ps) (at_ M) (stacked_state ps x U) (k * r + i) = apply n (fun a b => at_ M (k * r + a) (k * n + b)) (state_of ps x U k) i).
      { intros k i Hk Hi. unfold apply. replace (fullXDim ps) with ((N + 1) * n) by (rewrite FX, NX; fold N n; lia). rewrite sum_blocks.
        rewrite (sum_ext (N + 1) _ (fun l => (if Nat.eqb l k then sum n (fun j => at_ M (k * r + i) (k * n + j) * state_of ps x U k j) else 0)%Qc)).
        - rewrite (sum_ext (N + 1) _ (fun l => (if Nat.eqb l k then 1 else 0) * sum n (fun j => at_ M (k * r + i) (k * n + j) * state_of ps x U k j))%Qc) by (intros l _; destruct (Nat.eqb l k); ring).
          rewrite sum_scal_r. replace (sum (N + 1) (fun l => if Nat.eqb l k then 1%Qc else 0%Qc)) with 1%Qc; [ring|].
          clear - Hk. symmetry. assert (Z : forall a, a <= k -> sum a (fun l => if Nat.eqb l k then 1%Qc else 0%Qc) = 0%Qc).
          { intros a Ha. apply sum_zero. intros l Hl. rewrite (proj2 (Nat.eqb_neq _ _)) by lia. reflexivity. }
          replace (N + 1) with (k + (1 + (N - k))) by lia. rewrite sum_plus, Z by lia. rewrite sum_plus. cbn [sum]. rewrite Nat.add_0_r, Nat.eqb_refl.
          rewrite sum_zero; [ring|]. intros l Hl. rewrite (proj2 (Nat.eqb_neq _ _)) by lia. reflexivity.
        - intros l Hl. destruct (Nat.eqb_spec l k) as [->|Ne].
          + apply sum_ext. intros j Hj. f_equal. unfold stacked_state. fold n. rewrite Nat.div_add_l by lia. rewrite (Nat.div_small j n) by exact Hj.
            assert (MQ : (k * n + j) mod n = j) by (rewrite Nat.add_comm, Nat.mod_add by lia; apply Nat.mod_small; exact Hj). rewrite MQ, Nat.add_0_r. reflexivity.
          + apply sum_zero. intros j Hj. rewrite BD by lia. ring. }
      unfold wsq. rewrite Rw. replace (r * (N + 1)) with ((N + 1) * r) by lia. rewrite sum_blocks. rewrite sum_plus. cbn [sum]. rewrite Nat.add_0_r, Qcplus_0_l.
      rewrite Qcmult_plus_distr_r. f_equal.
      * rewrite <- sum_scal_l. apply sum_ext. intros k Hk. f_equal. apply sum_ext. intros i Hi. destruct (SB k i Hk Hi) as [B1 [B2 B3]].
        rewrite BL by lia. rewrite B2, B3. assert (Q : apply n (fun a b => at_ M (k * r + a) (k * n + b)) (state_of ps x U k) i = apply n (at_ M) (state_of ps x U k) i).
        { unfold apply. apply sum_ext. intros j Hj. rewrite B1 by exact Hj. reflexivity. } rewrite Q. reflexivity.
      * f_equal. apply sum_ext. intros i Hi. rewrite BL by lia. reflexivity.
    + intros x x' u u' Hx _. apply wsq_ext. intros i _. split; [reflexivity|]. unfold apply. f_equal. apply sum_ext. intros j Hj. rewrite Hx by exact Hj. reflexivity.
    + intros x x' Hx. apply wsq_ext. intros i _. split; [reflexivity|]. unfold apply. f_equal. apply sum_ext. intros j Hj. rewrite Hx by exact Hj. reflexivity.
Qed.
Print Assumptions C67_additive.

(** ** Example: the loop of C64, two turns, from 2 to 1 to 1/2 *)
Definition half_state : vec Qc := Vec 1 (fun _ => half).
Definition turn67 : list op := [OSolve (env_certs [cert64b]); OPs 0 (PXInit half_state)].
Definition l67 (i : nat) (x u : nat -> Qc) : Qc := wsq 1 (vget (weights_of ex64 0)) (fun i => apply 1 (at_ (mlit [[1]]%Z)) u i - vget (vlit [0]%Z) i)%Qc.
Example C67_example : exists w w' T,
  settles 1 1 2 ex64 w 0 (fun _ => qz 0) (fun _ => qz 0) l67 (fun _ _ => 0%Qc) /\ closed_loop 0 w (turn64 ++ turn67) w' T /\
  follows_protocol 1 1 2 world0 (ex64 ++ turn64 ++ turn67) /\ length T = 2 /\
  step_cost 1 (spCost (ctl w)) l67 (fun _ => qz 0) (fun _ => qz 0) = 0%Qc /\ (forall i a b, (0 <= l67 i a b)%Qc).
Proof.
  assert (SF : sizes_fit 1 1 2) by (repeat split; lia).
  assert (FP : follows_protocol 1 1 2 world0 (ex64 ++ turn64 ++ turn67)).
  { apply followsb_ok; [|vm_compute; reflexivity]. intros e H. cbn in H. repeat (destruct H as [H|H]; [try discriminate H|]); try contradiction; injection H as <-; apply env_certs_sane. }
  assert (CA : callable world0 ex64) by (apply callableb_ok; vm_compute; reflexivity).
  assert (HO : honest world0 ex64) by (apply honestb_ok; vm_compute; reflexivity).
  assert (C : match run world0 ex64 with
    | Some w => (m_ps (ctl w) = Some 0 /\ m_is (ctl w) = None /\ spC (ctl w) = [0; 1] /\ spB (ctl w) = [1] /\ hcon w 0 = 1 /\ hcon w 1 = 1) /\
                xDim (wps w 0) = 1 /\ uDim (wps w 0) = 1 /\ spCost (ctl w) = [0] /\ hcost w 0 = 1 /\ nrUStep (wps w 0) = 2 /\ nrXStep (wps w 0) = 3 /\ fullXDim (wps w 0) = 3
    | None => False end) by (vm_compute; repeat split).
  assert (D : match run world0 ex64 with
    | Some w => match solve (env_certs [cert64a]) w with
        | Some (b, w1) => b && Nat.eqb (vsize (m_traj (ctl w1))) 3 && qeqb (vget (m_traj (ctl w1)) 1) (qz 1) &&
            match step w1 (OPs 0 (PXInit (vlit [1]%Z))) with
            | Ok w2 => Nat.eqb (xDim (wps w2 0)) 1 && match solve (env_certs [cert64b]) w2 with
                | Some (b', w3) => b' && Nat.eqb (vsize (m_traj (ctl w3))) 3 && qeqb (vget (m_traj (ctl w3)) 1) half &&
                    match step w3 (OPs 0 (PXInit half_state)) with Ok _ => true | _ => false end
                | None => false end
            | _ => false end
        | None => false end && qeqb (at_ (psA (wps w 0)) 0 0) (qz 1) && qeqb (at_ (psB (wps w 0)) 0 0) (qz 1) && qeqb (vget (psd (wps w 0)) 0) (qz 0)
    | None => false end = true) by (vm_compute; reflexivity).
  destruct (run world0 ex64) as [w|] eqn:R; [|contradiction]. destruct C as [[C1 [C2 [C3 [C4 [C5 C6]]]]] [C7 [C8 [C9 [C10 [C11 [C12 C13]]]]]]].
  apply andb_prop in D as [D Dd]. apply andb_prop in D as [D DB]. apply andb_prop in D as [D DA].
  destruct (solve (env_certs [cert64a]) w) as [[b w1]|] eqn:S1; [|discriminate D]. apply andb_prop in D as [D D4]. apply andb_prop in D as [D D3]. apply andb_prop in D as [D1 D2].
  destruct b; [|discriminate D1]. clear D1. destruct (step w1 (OPs 0 (PXInit (vlit [1]%Z)))) as [w2| |] eqn:S2; try discriminate D4.
  apply andb_prop in D4 as [D4 D5].
  destruct (solve (env_certs [cert64b]) w2) as [[b w3]|] eqn:S3; [|discriminate D5].
  apply andb_prop in D5 as [D5 E4]. apply andb_prop in D5 as [D5 E3]. apply andb_prop in D5 as [E1 E2]. destruct b; [|discriminate E1].
  destruct (step w3 (OPs 0 (PXInit half_state))) as [w4| |] eqn:S4; try discriminate E4. clear E4.
  apply Nat.eqb_eq in D2, D4, E2. apply qeqb_ok in D3, E3, DA, DB, Dd.
  exists w, w4, ([(x0 (wps w 0), m_ctrl (ctl w1))] ++ [(x0 (wps w2 0), m_ctrl (ctl w3))]).
  split.
  { constructor.
    - constructor; try assumption.
      + intros i Hi. rewrite C3 in Hi. destruct Hi as [<-|[<-|[]]]; [rewrite C5|rewrite C6]; lia.
      + intros i Hi. rewrite C3 in Hi. destruct Hi as [<-|[<-|[]]]; intros lower upper H; cbn in H; discriminate H.
      + left. rewrite C4. discriminate.
    - intros i Hi. rewrite C7 in Hi. destruct i; [|lia]. unfold next_state, apply. rewrite C7, C8. cbn [sum]. rewrite DA, DB, Dd. apply Qc_is_canon. reflexivity.
    - rewrite C4. discriminate.
    - intros i d Hi. rewrite C3 in Hi. destruct Hi as [<-|[<-|[]]]; intro H; cbn in H; injection H as <-.
      + right. split; [split; [reflexivity|]|].
        * intros i j Hi Hj. cbn in Hi, Hj. destruct i; [|lia]. destruct j as [|[|j]]; [reflexivity|reflexivity|lia].
        * intros i Hi. cbn in Hi. destruct i; [|lia]. vm_compute. f_equal; apply Qc_is_canon; reflexivity.
      + left. split; [reflexivity|]. intros i Hi. destruct i; [|lia]. vm_compute. split; discriminate.
    - exists 0. eexists. split; [rewrite C3; left; reflexivity|]. split; [reflexivity|]. split; [split; [reflexivity|]|].
      + intros i j Hi Hj. cbn in Hi, Hj. destruct i; [|lia]. destruct j as [|[|j]]; [reflexivity|reflexivity|lia].
      + intros x H i Hi. destruct i; [|lia]. specialize (H 0 ltac:(cbn; lia)). exact (one_row _ H).
    - intros i Hi. rewrite C9 in Hi. destruct Hi as [<-|[]]. lia.
    - intros i Hi. rewrite C9 in Hi. destruct Hi as [<-|[]]. exists (DCtrlC (mlit [[1]]%Z) (vlit [0]%Z)). split; [reflexivity|].
      destruct (C67_additive (wps w 0) ltac:(lia) ltac:(lia) ltac:(rewrite C7, C12, C13; reflexivity) ltac:(lia) (weights_of ex64 0)) as [A _].
      rewrite C8 in A. apply (A (mlit [[1]]%Z) (vlit [0]%Z)). reflexivity. }
  split.
  { apply (loop_turn 0 w turn64 w2 [(x0 (wps w 0), m_ctrl (ctl w1))] (env_certs [cert64b]) w3 half_state w4); [|apply env_certs_exact|exact S3|rewrite D4; reflexivity| |exact S4].
    - apply (loop_turn 0 w [] w [] (env_certs [cert64a]) w1 (vlit [1]%Z) w2); [constructor|apply env_certs_exact|exact S1|rewrite C7; reflexivity| |exact S2].
      rewrite C7. split; [rewrite D2; cbn; lia|]. intros i Hi. cbn in Hi. destruct i as [|i]; [symmetry; exact D3|lia].
    - rewrite D4. split; [rewrite E2; cbn; lia|]. intros i Hi. cbn in Hi. destruct i as [|i]; [symmetry; exact E3|lia]. }
  split; [exact FP|]. split; [reflexivity|]. split.
  - rewrite C9. apply Qc_is_canon. vm_compute. reflexivity.
  - intros i a b. unfold l67, wsq. apply qc_mul_nonneg; [discriminate|]. apply sum_nonneg. intros k Hk. apply qc_mul_nonneg; [|apply qc_sq_nonneg].
    destruct k; [|lia]. vm_compute. discriminate.
Qed.
