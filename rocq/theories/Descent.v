(** Descent.v -- what the receding horizon loop spends (proofs for C67). *)
From Verif Require Import Base Eigen Spec Preview SpecApi PreviewProofs AutoSpan AutoSpanProofs Constraints ConstraintProofs
  SpecConstraints ConstraintMeaning Checkers Costs SpecCosts CostProofs CostMeaning Properties_Costs Controller Registry SpecController Assembly
  Results Properties_Assembly Properties_Results SpecProtocol Protocol Properties_Protocol SpecEndToEnd SpanData Properties_Registry
  EndToEnd EndToEndQP EndToEndRows EndToEndMain Convex ExactSolver Properties_EndToEnd Determined Properties_Problem StateExt
  SpecMeaning Meaning SpecTail Tail SpecLedger Ledger Properties_Ledger SpecLoop Loop Properties_Loop SpecDescent.

Section Shift.
Variables (ps : psys) (x U xe ue : nat -> Qc).
Hypothesis R : ready ps.
Notation n := (xDim ps). Notation m := (uDim ps). Notation N := (nrUStep ps).
Hypothesis N1 : 1 <= N.
Hypothesis EQ : equilibrium ps xe ue.
Hypothesis TE : forall i, i < n -> state_of ps x U N i = xe i.
Notation x1 := (state_of ps x U 1).
Notation V := (shifted m N U ue).

Lemma shift_additive d w l f : additive ps d w l f ->
  (cost_value ps d w x1 V + l x U = cost_value ps d w x U + l xe ue)%Qc.
Proof using All.
  intros [A [El Ef]]. rewrite !A.
  assert (F1 : f (state_of ps x1 V N) = f xe) by (apply Ef; apply shift_end; assumption).
  assert (F2 : f (state_of ps x U N) = f xe) by (apply Ef; apply TE).
  rewrite F1, F2. replace N with (S (N - 1)) at 1 by lia. cbn [sum].
  assert (L : l (state_of ps x1 V (N - 1)) (control_at m V (N - 1)) = l xe ue).
  { apply El; [|apply shift_last_control; exact N1]. intros i Hi. rewrite shift_state by lia || assumption.
    replace (1 + (N - 1)) with N by lia. apply TE. exact Hi. }
  rewrite L.
  assert (S1 : sum (N - 1) (fun k => l (state_of ps x1 V k) (control_at m V k)) = sum (N - 1) (fun k => l (state_of ps x U (1 + k)) (control_at m U (1 + k)))).
  { apply sum_ext. intros k Hk. apply El; intros i Hi; [apply shift_state|apply shift_control]; lia || assumption. }
  rewrite S1.
  assert (S2 : sum N (fun k => l (state_of ps x U k) (control_at m U k)) = (l x U + sum (N - 1) (fun k => l (state_of ps x U (1 + k)) (control_at m U (1 + k))))%Qc).
  { replace N with (1 + (N - 1)) at 1 by lia. rewrite sum_plus. f_equal. cbn [sum]. rewrite Qcplus_0_l. apply El; intros i Hi; reflexivity. }
  rewrite S2. ring.
Qed.
Lemma shift_reg : (regularization (m * N) V + regularization m U = regularization (m * N) U + regularization m ue)%Qc.
Proof using N1.
  unfold regularization.
  assert (S1 : sum (m * N) (fun i => V i * V i)%Qc = (sum (m * (N - 1)) (fun i => U (m + i)%nat * U (m + i)%nat)%Qc + sum m (fun i => ue i * ue i)%Qc)%Qc).
  { replace (m * N) with (m * (N - 1) + m) by nia. rewrite sum_plus. f_equal; apply sum_ext; intros i Hi; unfold shifted.
    - destruct (Nat.ltb_spec i (m * (N - 1))) as [L|L]; [reflexivity|lia].
    - destruct (Nat.ltb_spec (m * (N - 1) + i) (m * (N - 1))) as [L|L]; [lia|]. replace (m * (N - 1) + i - m * (N - 1)) with i by lia. reflexivity. }
  assert (S2 : sum (m * N) (fun i => U i * U i)%Qc = (sum m (fun i => U i * U i) + sum (m * (N - 1)) (fun i => U (m + i)%nat * U (m + i)%nat))%Qc).
  { replace (m * N) with (m + m * (N - 1)) by nia. apply sum_plus. }
  rewrite S1, S2. ring.
Qed.
Lemma shift_plan h costs l f : fullUDim ps = m * N ->
  (forall i, In i costs -> exists d, cost_data_of h i = Some d /\ additive ps d (weights_of h i) (l i) (f i)) ->
  (plan_cost ps h costs x1 V + step_cost m costs l x U = plan_cost ps h costs x U + step_cost m costs l xe ue)%Qc.
Proof using All.
  intros FU AD. unfold plan_cost, step_cost. rewrite FU. pose proof shift_reg as G.
  assert (L : (lsum costs (fun i => match cost_data_of h i with Some d => cost_value ps d (weights_of h i) x1 V | None => 0%Qc end) + lsum costs (fun i => l i x U)
             = lsum costs (fun i => match cost_data_of h i with Some d => cost_value ps d (weights_of h i) x U | None => 0%Qc end) + lsum costs (fun i => l i xe ue))%Qc).
  { rewrite <- !lsum_add. apply lsum_ext. intros i Hi. destruct (AD i Hi) as [d [-> Ad]]. apply shift_additive with (f := f i). exact Ad. }
  qc_lra.
Qed.
End Shift.

(** ** The costs along the loop *)
Lemma new_costs_app h g : (forall d, ~ In (ONewCost d) g) -> new_costs (h ++ g) = new_costs h.
Proof.
  intro H. unfold new_costs. rewrite flat_map_app. rewrite <- (app_nil_r (flat_map _ h)) at 2. f_equal.
  induction g as [|o g IH]; [reflexivity|]. cbn [flat_map]. rewrite IH by (intros d Hd; apply (H d); right; exact Hd).
  destruct o; try reflexivity. exfalso. eapply H. left. reflexivity.
Qed.
Definition turn_op (o : op) : Prop := match o with OSolve _ | OPs _ (PXInit _) => True | _ => False end.
Lemma turn_ops p w0 g w T : closed_loop p w0 g w T -> forall o, In o g -> turn_op o.
Proof.
  induction 1 as [|g w T e w1 x w2 CL IH EX So Sx Px St]; intros o Ho; [destruct Ho|].
  apply in_app_or in Ho as [Ho|[<-|[<-|[]]]]; [exact (IH o Ho)|exact I|exact I].
Qed.
Lemma turn_cost_data h g i : (forall o, In o g -> turn_op o) -> cost_data_of (h ++ g) i = cost_data_of h i.
Proof.
  intro H. unfold cost_data_of. rewrite new_costs_app by (intros d Hd; apply H in Hd; exact Hd). rewrite existsb_app.
  replace (existsb (spans_cost i) g) with false; [rewrite orb_false_r; reflexivity|]. symmetry. apply not_true_iff_false. intro E.
  apply existsb_exists in E as [o [Ho E]]. apply H in Ho. destruct o; try discriminate E. exact Ho.
Qed.
Lemma turn_weights h g i : (forall o, In o g -> turn_op o) -> weights_of (h ++ g) i = weights_of h i.
Proof.
  intro H. unfold weights_of. rewrite new_costs_app by (intros d Hd; apply H in Hd; exact Hd). destruct (nth_error (new_costs h) i) as [d|]; [|reflexivity].
  unfold weights_after. rewrite fold_left_app. generalize (fold_left (weights_after_call d i) h (vconst (cost_rows d) 1%Qc)) as cur.
  induction g as [|o g IH]; intro cur; [reflexivity|]. cbn [fold_left]. rewrite IH by (intros o' Ho; apply H; right; exact Ho).
  assert (T : turn_op o) by (apply H; left; reflexivity). destruct o; try contradiction T; reflexivity.
Qed.
Lemma turn_spCost n m N h0 w0 p : loop_ready n m N h0 w0 p -> (forall i, In i (spCost (ctl w0)) -> 0 < hcost w0 i) ->
  forall g w T, closed_loop p w0 g w T -> follows_protocol n m N world0 (h0 ++ g) -> spCost (ctl w) = spCost (ctl w0) /\ hcost w = hcost w0.
Proof.
  intros LR OWN. induction 1 as [|g w T e w1 x w2 CL IH EX So Sx Px St]; intro FP; [split; reflexivity|].
  assert (FP1 : follows_protocol n m N world0 (h0 ++ g)) by (rewrite app_assoc in FP; eapply follows_prefix; exact FP).
  destruct (IH FP1) as [E1 E2]. pose proof (lr_inv n m N h0 w0 p LR g w T CL FP1) as LI.
  destruct (solve_lists e w true w1 (reached_inv _ _ (li_re _ _ _ _ _ LI)) So) as [_ [H2 [_ [_ [_ [_ L5]]]]]].
  cbn [step ps_step] in St. injection St as <-. cbn. split; [|congruence].
  rewrite L5, E1. apply filter_all. intros i Hi. unfold survives. rewrite E2, (proj2 (Nat.eqb_neq _ 0)); [reflexivity|]. specialize (OWN i Hi). lia.
Qed.

(** ** The same model *)
Lemma model_of ps ps' : psA ps = psA ps' -> psB ps = psB ps' -> psd ps = psd ps' -> same_dims ps ps' -> same_model ps ps'.
Proof. intros. split; [assumption|auto]. Qed.
Lemma model_state p q x U k : same_model p q -> state_of p x U k = state_of q x U k.
Proof. intros [[E1 [E2 _]] [A [B D]]]. unfold state_of. rewrite A, B, D, E1, E2. reflexivity. Qed.
Lemma model_additive p q d w l f : same_model p q -> additive p d w l f -> additive q d w l f.
Proof.
  intros M [A [El Ef]]. pose proof M as [[E1 [E2 [E3 _]]] _]. split; [|split].
  - intros x U. rewrite <- (cost_value_model p q d w x U M), A, <- E2, <- E3. f_equal; [|rewrite (model_state p q) by exact M; reflexivity].
    apply sum_ext. intros k Hk. rewrite (model_state p q) by exact M. reflexivity.
  - rewrite <- E1, <- E2. exact El.
  - rewrite <- E1. exact Ef.
Qed.
Lemma model_plan p q h costs x U : same_model p q -> plan_cost p h costs x U = plan_cost q h costs x U.
Proof.
  intros M. unfold plan_cost. pose proof M as [[_ [_ [_ [_ [_ E6]]]]] _]. rewrite E6. f_equal. apply lsum_ext. intros i Hi.
  destruct (cost_data_of h i) as [d|]; [apply cost_value_model; exact M|reflexivity].
Qed.
Lemma plan_same ps h costs x y U : ready ps -> (forall i, i < xDim ps -> x i = y i) -> plan_cost ps h costs x U = plan_cost ps h costs y U.
Proof.
  intros R E. unfold plan_cost. f_equal. apply lsum_ext. intros i Hi. destruct (cost_data_of h i) as [d|]; [|reflexivity].
  apply cost_value_ext_x; auto.
Qed.

(** ** The last plan, shifted *)
Section Last.
Variables (n m N : nat) (h : list op) (w : world) (p : nat) (xe ue : nat -> Qc).
Hypothesis LR : loop_ready n m N h w p.
Hypothesis EQ : equilibrium (wps w p) xe ue.
Hypothesis RU : spB (ctl w) = [] -> representable m ue.
Hypothesis SU : forall i d, In i (spC (ctl w)) -> con_data_of h i = Some d -> suits n m N xe ue d.
Hypothesis EN : exists i d, In i (spC (ctl w)) /\ con_data_of h i = Some d /\ ends_at n N xe d.

Lemma shifted_plan g w' T x U : closed_loop p w g w' (T ++ [(x, U)]) -> follows_protocol n m N world0 (h ++ g) ->
  exists ps, ready ps /\ same_model ps (wps w p) /\ xDim ps = n /\ uDim ps = m /\ nrUStep ps = N /\
  (forall i, i < n -> state_of ps (vget x) (vget U) N i = xe i) /\
  (forall i, i < n -> state_of ps (vget x) (vget U) 1 i = vget (x0 (wps w' p)) i) /\
  (forall i d, In i (spC (ctl w)) -> con_data_of h i = Some d -> imposes ps d (vget (x0 (wps w' p))) (shifted m N (vget U) ue)) /\
  (spB (ctl w) = [] -> representable (m * N) (shifted m N (vget U) ue)).
Proof using All.
  destruct EN as [i0 [d0 [Hi0 [Hd0 [FO PN]]]]]. intros CL FP. assert (N1 : 1 <= N) by apply (lr_sizes _ _ _ _ _ _ LR).
  inversion CL as [Hn1 Hn2 Hn3|g1 w1 T1 e1 w2 y w3 CL1 EX1 So1 Sx Px St E1 E2 E3]; [destruct T; discriminate|]. subst w3.
  apply app_inj_tail in E3 as [-> E3]. injection E3 as <- <-.
  assert (FP1 : follows_protocol n m N world0 (h ++ g1)) by (rewrite <- E1, app_assoc in FP; eapply follows_prefix; exact FP).
  destruct (turn_facts n m N h w p LR g1 w1 T e1 w2 CL1 FP1 EX1 So1) as [R [Xn [Um [Nn [EA [EB [Ed [SD [Tr [Im Rp]]]]]]]]]]. cbv zeta in Im, Rp.
  pose proof (lr_inv n m N h w p LR g1 w1 T CL1 FP1) as LI1.
  assert (XX : x0 (wps w' p) = y) by (rewrite <- E1 in FP; destruct LR; eapply (loop_inv_turn n m N h w p); eassumption).
  assert (XD : xDim (wps w1 p) = n).
  { destruct (li_sys _ _ _ _ _ LI1) as [_ [_ [_ D]]]. rewrite <- Xn. transitivity (xDim (wps w p)); [apply D|symmetry; apply SD]. }
  exists (wps w2 p). set (ps := wps w2 p) in *. set (V := vget (m_ctrl (ctl w2))) in *. set (xa := vget (x0 (wps w1 p))) in *.
  assert (EQ' : equilibrium ps xe ue) by (intros i Hi; rewrite (next_state_same ps (wps w p)) by assumption; apply EQ; rewrite <- (proj1 SD); exact Hi).
  assert (TE : forall i, i < xDim ps -> state_of ps xa V (nrUStep ps) i = xe i).
  { specialize (Im i0 d0 Hi0 Hd0). destruct d0 as [E f q| | | |]; cbn [final_only] in FO; try contradiction.
    rewrite <- Xn, <- Nn in FO, PN. apply (final_means ps R ltac:(lia) E f q xa V FO) in Im. intros i Hi. apply (PN _ Im). lia. }
  assert (X1 : forall i, i < xDim ps -> state_of ps xa V 1 i = vget y i).
  { intros i Hi. rewrite state_one. symmetry. apply (next_after ps (x0 (wps w1 p)) (m_ctrl (ctl w2)) (m_traj (ctl w2))); [lia|exact Tr|congruence|congruence|exact Hi]. }
  assert (FU : fullUDim ps = m * N) by (rewrite (rd_fu _ R), Um, Nn; reflexivity).
  split; [exact R|]. split; [apply model_of; assumption|]. do 3 (split; [assumption|]). rewrite Xn, Nn in TE. rewrite XX. rewrite Xn in X1. split; [exact TE|]. split; [exact X1|]. split.
  - intros i d Hi Hd.
    apply (imposes_ext ps (state_of ps xa V 1) (vget y) (shifted m N V ue) (shifted m N V ue) d R); [rewrite Xn; exact X1|intros; reflexivity|].
    rewrite <- Um, <- Nn at 1. apply (shift_imposes ps xa V xe ue R ltac:(lia) EQ'); [rewrite Xn, Nn; exact TE| |apply (Im i d Hi Hd)].
    rewrite Xn, Um, Nn. apply (SU i d Hi Hd).
  - intros HB j Hj. specialize (Rp HB). specialize (RU HB). unfold shifted. rewrite FU in Rp. destruct (Nat.ltb_spec j (m * (N - 1))) as [L|L].
    + apply Rp. nia.
    + apply RU. nia.
Qed.

Hypothesis OWN : forall i, In i (spCost (ctl w)) -> 0 < hcost w i.
Variables (l : nat -> (nat -> Qc) -> (nat -> Qc) -> Qc) (f : nat -> (nat -> Qc) -> Qc).
Hypothesis AD : forall i, In i (spCost (ctl w)) -> exists d, cost_data_of h i = Some d /\ per_step (wps w p) d = false /\ additive (wps w p) d (weights_of h i) (l i) (f i).

Lemma model_per_step q r d : same_model q r -> per_step q d = per_step r d.
Proof using. intros [[E1 [E2 _]] _]. destruct d; cbn [per_step]; rewrite ?E1, ?E2; reflexivity. Qed.

Lemma descent_turn g w' T x U e w'' : closed_loop p w g w' (T ++ [(x, U)]) -> follows_protocol n m N world0 (h ++ g) -> exact_solver e -> solve e w' = Some (true, w'') ->
  (plan_cost (wps w p) h (spCost (ctl w)) (vget (x0 (wps w' p))) (vget (m_ctrl (ctl w''))) + step_cost m (spCost (ctl w)) l (vget x) (vget U)
   <= plan_cost (wps w p) h (spCost (ctl w)) (vget x) (vget U) + step_cost m (spCost (ctl w)) l xe ue)%Qc.
Proof using All.
  intros CL FP EX So. destruct (shifted_plan g w' T x U CL FP) as [ps [R [SM [Xn [Um [Nn [TE [X1 [Im Rp]]]]]]]]].
  assert (N1 : 1 <= N) by apply (lr_sizes _ _ _ _ _ _ LR).
  assert (EQ' : equilibrium ps xe ue).
  { destruct SM as [SD [A [B D]]]. intros i Hi. rewrite (next_state_same ps (wps w p)) by assumption. apply EQ. rewrite <- (proj1 SD). exact Hi. }
  assert (FU : fullUDim ps = uDim ps * nrUStep ps) by (apply (rd_fu _ R)).
  pose proof (shift_plan ps (vget x) (vget U) xe ue R ltac:(lia) EQ' ltac:(rewrite Xn, Nn; exact TE) h (spCost (ctl w)) l f FU) as SP.
  assert (AD' : forall i, In i (spCost (ctl w)) -> exists d, cost_data_of h i = Some d /\ additive ps d (weights_of h i) (l i) (f i)).
  { intros i Hi. destruct (AD i Hi) as [d [E [_ A]]]. exists d. split; [exact E|]. apply (model_additive (wps w p)); [|exact A].
    destruct SM as [SD [Ea [Eb Ed]]]. apply model_of; try congruence. apply same_dims_sym. exact SD. }
  specialize (SP AD'). rewrite Um, Nn in SP.
  rewrite (plan_same ps h (spCost (ctl w)) (state_of ps (vget x) (vget U) 1) (vget (x0 (wps w' p))) _ R) in SP by (rewrite Xn; exact X1).
  (* the next solve does no worse than the shifted plan *)
  pose proof (lr_inv n m N h w p LR g w' _ CL FP) as LI. destruct (turn_spCost n m N h w p LR OWN g w' _ CL FP) as [EK _].
  destruct LI as [RE CA HO Ep NI EC EB EH [ED ENc] ST [EA [EBB [Edd SD]]] NW].
  destruct (C63_end_to_end n m N (h ++ g) w' p e w'' (lr_sizes _ _ _ _ _ _ LR) FP CA HO RE Ep NI) as [X0 [A0 [B0 [D0 [SD0 [_ [_ [Op _]]]]]]]];
    [intros i Hi; unfold even_bounds; rewrite ENc; rewrite EC in Hi; apply (lr_even _ _ _ _ _ _ LR i Hi)|apply ST; apply LR|exact EX|exact So|].
  assert (SM2 : same_model (wps w'' p) (wps w p)) by (apply model_of; try congruence; eapply same_dims_trans; eassumption).
  assert (SM3 : same_model ps (wps w'' p)).
  { destruct SM as [S1 [S2 [S3 S4]]], SM2 as [T1 [T2 [T3 T4]]]. apply model_of; try congruence. eapply same_dims_trans; [exact S1|apply same_dims_sym; exact T1]. }
  assert (EC' : forall V, (effective_cost (wps w'' p) (h ++ g) e (spCost (ctl w')) V + regularization (fullUDim (wps w'' p)) V)%Qc
                = plan_cost (wps w p) h (spCost (ctl w)) (vget (x0 (wps w' p))) V).
  { intro V. rewrite <- (model_plan _ _ _ _ _ _ SM2). unfold plan_cost. f_equal. unfold effective_cost. rewrite EK. apply lsum_ext. intros i Hi.
    destruct (AD i Hi) as [d [E [PS _]]]. rewrite (turn_cost_data h g i (turn_ops _ _ _ _ _ CL)), E, (model_per_step _ _ d SM2), PS.
    rewrite (turn_weights h g i (turn_ops _ _ _ _ _ CL)), X0. reflexivity. }
  specialize (Op (shifted m N (vget U) ue)). rewrite !EC' in Op. rewrite !(model_plan _ _ _ _ _ _ SM) in SP.
  assert (AV : all_imposed (wps w'' p) (h ++ g) (spC (ctl w')) (shifted m N (vget U) ue) /\
               (spB (ctl w') = [] -> representable (fullUDim (wps w'' p)) (shifted m N (vget U) ue))).
  { split.
    - intros i d Hi Hd. rewrite EC in Hi. rewrite ED in Hd. rewrite X0. destruct SM3 as [S1 [S2 [S3 S4]]]. apply (imposes_same ps); try assumption. apply (Im i d Hi Hd).
    - intro HB. rewrite EB in HB. destruct SM3 as [[_ [_ [_ [_ [_ S6]]]]] _]. rewrite <- S6, FU, Um, Nn. apply Rp. exact HB. }
  specialize (Op AV). qc_lra.
Qed.
End Last.
