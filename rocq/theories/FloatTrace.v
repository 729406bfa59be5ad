(** FloatTrace.v -- what a controller that rounds keeps of the data given by the user, along any history. *)
From Coq Require Import Qcabs.
From Verif Require Import Base Eigen Spec Preview SpecApi PreviewProofs AutoSpan AutoSpanProofs Constraints ConstraintProofs
  SpecConstraints ConstraintMeaning Checkers Costs SpecCosts CostProofs CostMeaning Properties_Costs Controller Registry SpecController Assembly
  Results SpecProtocol Protocol Properties_Protocol SpecEndToEnd SpanData Properties_Registry EndToEnd EndToEndQP EndToEndRows EndToEndMain.
From Verif Require Import Floats SpecFloats FloatProofs FloatPreview FloatConstraints FloatRows Properties_Floats
  FloatCosts SpecFloatCosts FloatCostProofs FloatCostRun FloatController SpecFloatRun FloatProtocol.
Open Scope nat_scope.
Open Scope list_scope.

Definition f_stepped (F : arith) (reg : Qc) (w : world) (o : op) (w' : world) : Prop :=
  f_step F reg w o = Ok w' \/ exists e, f_step F reg w o = Throw e w'.
Lemma f_run_snoc F reg o : forall h w w', f_run F reg w (h ++ [o]) = Some w' ->
  exists v, f_run F reg w h = Some v /\ f_stepped F reg v o w'.
Proof.
  induction h as [|x t IH]; intros w w' H; cbn [app f_run] in *.
  - exists w. split; [reflexivity|]. unfold f_stepped. destruct (f_step F reg w o) as [v|e v|]; [injection H as <-|injection H as <-|discriminate H]; eauto.
  - destruct (f_step F reg w x) as [v|e v|]; [apply IH; exact H|apply IH; exact H|discriminate H].
Qed.
Lemma each_call_snoc F reg P o : forall h w v, each_call F reg P w (h ++ [o]) -> f_run F reg w h = Some v ->
  each_call F reg P w h /\ P v o.
Proof.
  induction h as [|x t IH]; intros w v H R; cbn [app each_call f_run] in *.
  - injection R as <-. destruct H as [H _]. auto.
  - destruct H as [Hx H]. destruct (f_step F reg w x) as [y|e y|]; [| |discriminate R]; destruct (IH y v H R) as [A B]; auto.
Qed.
Lemma f_stale_snoc F reg o : forall h w b v, f_run F reg w h = Some v ->
  f_stale F reg w b (h ++ [o]) = stale_op v (f_stale F reg w b h) o.
Proof.
  induction h as [|x t IH]; intros w b v R; cbn [app f_stale f_run] in *.
  - injection R as <-. destruct (f_step F reg w o); reflexivity.
  - destruct (f_step F reg w x) as [y|e y|]; [| |discriminate R]; apply IH; exact R.
Qed.
Lemma op_cases (o : op) : plain_op o \/ (exists p po, o = OPs p po) \/ exists e, o = OSolve e.
Proof. destruct o; cbn [plain_op]; eauto. Qed.
Lemma plain_f_step F reg w o : plain_op o -> f_step F reg w o = step w o.
Proof. destruct o; cbn [plain_op]; tauto || reflexivity. Qed.

Section Trace.
Variables (u : Qc) (F : arith) (Ac : accurate u F) (reg : Qc).
Variables n m N : nat.
Hypothesis SF : sizes_fit n m N.
Notation D := (dps n m N).

(** ** One solve *)
Lemma f_solve_parts e w b w' : f_pinv F n m N w -> f_solve F reg e w = Some (b, w') ->
  exists p ps w1 r, m_ps (ctl w) = Some p /\ m_sol (ctl w') = r /\ f_ensureUpdated F (wps w p) = Some ps /\ f_build F reg e w = Some w1 /\
    s_qp e (vsize (qc (m_qp (ctl w1)))) (nrEq (ctl w1)) (nrIneq (ctl w1)) (m_qp (ctl w1)) = (b, r) /\
    wps w' = upd (wps w) p ps /\ wcon w' = wcon w1 /\ wcost w' = wcost w1 /\ ncon w' = ncon w /\ ncost w' = ncost w /\
    m_qp (ctl w') = m_qp (ctl w1) /\ m_ps (ctl w') = m_ps (ctl w) /\ m_is (ctl w') = m_is (ctl w) /\
    nrEq (ctl w') = nrEq (ctl w1) /\ nrIneq (ctl w') = nrIneq (ctl w1) /\
    f_update_cons F ps (spC (ctl w)) (wcon w) = Some (wcon w1) /\ f_update_costs F ps (spCost (ctl w)) (wcost w) = Some (wcost w1) /\
    (forall i, In i (spCost (ctl w')) -> In i (spCost (ctl w))) /\
    (b = true -> match m_is (ctl w) with
       | None => exists x, f_preview F ps (x0 ps) r = Some x /\ m_traj (ctl w') = x /\ m_ctrl (ctl w') = r
       | Some _ => exists xi v x, seg r 0 (xDim ps) = Some xi /\ tail r (fullUDim ps) = Some v /\ f_preview F ps xi v = Some x /\
                     m_traj (ctl w') = x /\ m_ctrl (ctl w') = v
       end).
Proof using Ac.
  intros P H. unfold f_solve in H. destruct (f_build F reg e w) as [w1|] eqn:Eb; [|discriminate H]. cbn [obind] in H. cbv zeta in H.
  destruct (f_build_parts F reg e w w1 Eb) as [p [ps [wc [wk [q [Ep [Eu [Ec [Ek [Eq E1]]]]]]]]]]. cbv zeta in Eq, E1.
  exists p, ps, w1. destruct (s_qp e _ _ _ _) as [ok r] eqn:Es. exists r.
  assert (RI : reg_inv (dressw w1)).
  { pose proof P as [PI L]. destruct (pi_m _ _ PI p Ep) as [Np _]. cbn [dressw reps wps] in Np. rewrite dress_nu in Np.
    destruct (f_ensure_live F D _ (L p Np)) as [ps' [Eu' [Lp [Up _]]]]. rewrite Eu in Eu'. injection Eu' as <-.
    destruct Lp as [SD [FR CC]]. specialize (CC Up).
    destruct (f_cons_ok u F Ac n m N ps CC SD _ _ (pi_rcon _ _ PI)) as [wc' [Ec' [_ [_ C3]]]]. cbn [dressw reps ctl wcon] in Ec'. rewrite Ec in Ec'. injection Ec' as <-.
    assert (KD : forall i, same_kind (wcon w i) (wc i)) by (intro i; destruct (C3 i) as [[H1 [H2 _]] _]; split; cbn [dressw reps wcon] in *; congruence).
    apply (kept_inv (dressw w)); [exact (pi_reg _ _ PI)|]. rewrite E1. repeat split; cbn; apply KD. }
  match type of H with context [checkDelete ?W] => set (w2 := W) in H end.
  assert (CK : forall i, In i (spCost (ctl (checkDelete w2))) -> In i (spCost (ctl w1))).
  { assert (R2 : reg_inv (dressw w2)) by (apply (kept_inv (dressw w1)); [exact RI|repeat split]).
    destruct (checkDelete_ok (dressw w2) R2) as [lk [El E]]. cbv zeta in E.
    change (spCost (ctl (checkDelete w2))) with (spCost (ctl (checkDelete (dressw w2)))). rewrite E. cbn [set_ctl set_costs ctl spCost].
    intros i Hi. rewrite El in Hi. apply filter_In in Hi. exact (proj1 Hi). }
  assert (W1 : wps w1 = upd (wps w) p ps /\ wcon w1 = wc /\ wcost w1 = wk /\ ncon w1 = ncon w /\ ncost w1 = ncost w /\
     m_ps (ctl w1) = m_ps (ctl w) /\ m_is (ctl w1) = m_is (ctl w) /\ spCost (ctl w1) = spCost (ctl w)).
  { rewrite E1. repeat split. }
  destruct W1 as [V1 [V2 [V3 [V4 [V5 [V6 [V7 V8]]]]]]]. rewrite V8 in CK. rewrite V2, V3, <- V1, <- V4, <- V5, <- V6.
  assert (SO : forall w4, f_updateResults F (checkDelete w2) = Some w4 -> m_sol (ctl w4) = r /\ m_is (ctl w4) = m_is (ctl w1)).
  { intros w4 E4. unfold f_updateResults in E4. change (m_ps (ctl (checkDelete w2))) with (m_ps (ctl w1)) in E4. rewrite V6, Ep in E4. cbv zeta in E4.
    destruct (m_is (ctl (checkDelete w2))) eqn:E0.
    - destruct (tail _ _); [|discriminate E4]. cbn [obind] in E4. destruct (initialState _); [|discriminate E4]. cbn [obind] in E4.
      destruct (f_preview _ _ _ _); [|discriminate E4]. cbn [obind] in E4. injection E4 as <-. split; reflexivity.
    - destruct (f_preview _ _ _ _); [|discriminate E4]. cbn [obind] in E4. injection E4 as <-. split; reflexivity. }
  destruct ok.
  - destruct (f_updateResults F (checkDelete w2)) as [w4|] eqn:E4; [|discriminate H]. cbn [obind] in H. injection H as <- <-.
    destruct (SO _ eq_refl) as [SO1 SO2]. clear SO.
    unfold f_updateResults, initialState in E4. change (m_ps (ctl (checkDelete w2))) with (m_ps (ctl w1)) in E4. rewrite V6, Ep in E4. cbv zeta in E4.
    change (wps (checkDelete w2)) with (wps w1) in E4. change (m_sol (ctl (checkDelete w2))) with r in E4.
    change (m_is (ctl (checkDelete w2))) with (m_is (ctl w1)) in E4. rewrite V7 in E4.
    replace (wps w1 p) with ps in E4 by (rewrite V1; unfold upd; rewrite Nat.eqb_refl; reflexivity).
    split; [congruence|]. split; [exact SO1|]. split; [exact Eu|]. split; [reflexivity|]. split; [reflexivity|].
    destruct (m_is (ctl w)) as [s0|] eqn:Ei.
    + destruct (tail r (fullUDim ps)) as [v|] eqn:Ev; [|discriminate E4]. cbn [obind] in E4.
      destruct (seg r 0 (xDim ps)) as [xi|] eqn:Ex0; [|discriminate E4]. cbn [obind] in E4.
      destruct (f_preview F ps xi v) as [x|] eqn:Ex; [|discriminate E4]. cbn [obind] in E4. injection E4 as <-.
      repeat (split; [reflexivity || assumption || congruence|]). intros _. exists xi, v, x. repeat split; assumption.
    + destruct (f_preview F ps (x0 ps) r) as [x|] eqn:Ex; [|discriminate E4]. cbn [obind] in E4. injection E4 as <-.
      repeat (split; [reflexivity || assumption || congruence|]). intros _. exists x. repeat split.
  - cbn [obind] in H. injection H as <- <-. split; [congruence|]. split; [reflexivity|]. split; [exact Eu|]. split; [reflexivity|]. split; [reflexivity|].
    repeat (split; [reflexivity || assumption || congruence|]). intro Q; discriminate Q.
Qed.

(** ** The data along a history *)
Record finv (h : list op) (w : world) : Prop := {
  fi_p : f_pinv F n m N w;
  fi_nc : length (new_cons h) = ncon w;
  fi_nk : length (new_costs h) = ncost w;
  fi_sb : forall i, ncon w <= i -> existsb (spans_con i) h = false;
  fi_wb : forall d i, ncost w <= i -> weights_after d h i = vconst (cost_rows d) 1%Qc /\ existsb (spans_cost i) h = false;
  fi_con : con_data_inv h w;
  fi_cost : cost_data_inv h w;
  fi_zero : zero_inv n m N h w
}.
Lemma finv_keep h w o w' : finv h w -> ~ plain_op o -> (forall p po, o = OPs p po -> True) ->
  new_cons [o] = [] -> new_costs [o] = [] -> (forall i, spans_con i o = false) -> (forall i, spans_cost i o = false) ->
  (forall d i v, weights_after_call d i v o = v) -> (forall j i, o <> OAddCost j i) ->
  f_pinv F n m N w' -> ncon w' = ncon w -> ncost w' = ncost w ->
  (forall i, c_given (wcon w' i) = c_given (wcon w i) /\ (lines_fresh (wcon w i) -> lines_fresh (wcon w' i))) ->
  (forall i, k_given (wcost w' i) = k_given (wcost w i) /\ kw (wcost w' i) = kw (wcost w i)) ->
  ((forall e, o <> OSolve e) -> wcost w' = wcost w /\ spCost (ctl w') = spCost (ctl w)) ->
  finv (h ++ [o]) w'.
Proof using.
  intros [I1 I2 I3 I4 I5 I6 I7 I8] _ _ N1 N2 S1 S2 WA NA P E1 E2 G K Z. split.
  - exact P.
  - rewrite new_cons_app, N1, app_nil_r, E1. exact I2.
  - rewrite new_costs_app, N2, app_nil_r, E2. exact I3.
  - intros i Hi. rewrite existsb_app. cbn [existsb]. rewrite S1, I4 by lia. reflexivity.
  - intros d i Hi. rewrite weights_after_snoc, existsb_app, WA. cbn [existsb]. rewrite S2.
    destruct (I5 d i ltac:(lia)) as [A B]. rewrite A, B. auto.
  - intros i d Hd. destruct (con_data_snoc _ _ _ _ Hd) as [[d0 [-> [Ei Ed]]]|[Lt [e [He [[No ->]|[j [-> ->]]]]]]].
    + discriminate N1.
    + destruct (I6 i e He) as [A B]. destruct (G i) as [G1 G2]. rewrite G1. split; [exact A|]. intro Ev. apply G2, B. exact (even_bounds_snoc _ _ _ Lt Ev).
    + specialize (S1 i). cbn [spans_con] in S1. rewrite Nat.eqb_refl in S1. discriminate S1.
  - intros i d Hd. destruct (cost_data_snoc _ _ _ _ Hd) as [[d0 [-> [Ei [Ed Ew]]]]|[Lt [d0 [e [Hd0 [He [Ew [Er Ho]]]]]]]].
    + discriminate N2.
    + rewrite Ew, WA. destruct (I7 i e He) as [A B]. destruct (K i) as [K1 K2]. rewrite K1, K2.
      destruct Ho as [[No ->]|[j [-> ->]]]; [auto|]. specialize (S2 i). cbn [spans_cost] in S2. rewrite Nat.eqb_refl in S2. discriminate S2.
  - intros i Ad Hi. destruct (added_snoc _ _ _ Ad) as [NoS [[j Q]|Ad']]; [exfalso; exact (NA j i Q)|].
    destruct (Z NoS) as [Z1 Z2]. rewrite Z1. apply (I8 i Ad'). rewrite <- Z2. exact Hi.
Qed.
Lemma finv_step h w o w' : finv h w -> legal n m N w o -> callable_op w o -> honest_op w o ->
  f_stepped F reg w o w' -> finv (h ++ [o]) w'.
Proof using Ac SF.
  intros I Lg Co Ho S. pose proof I as [P I2 I3 I4 I5 I6 I7 I8].
  assert (P' : f_pinv F n m N w').
  { pose proof (f_step_ok u F Ac reg n m N SF w o P Lg Ho) as H. destruct S as [S|[e S]]; rewrite S in H; exact H. }
  destruct (op_cases o) as [PO|[[p [po ->]]|[e ->]]].
  - assert (S' : stepped w o w') by (unfold f_stepped in S; rewrite (plain_f_step F reg w o PO) in S; exact S).
    set (g := fun p => dress (wps w p)).
    assert (SD : stepped (dressw w) o (reps w' g)).
    { pose proof (plain_step w g o PO ltac:(intro p; apply dress_dims)) as E. unfold stepped. fold g in E. unfold dressw. fold g.
      destruct S' as [S'|[x S']]; rewrite S' in E; cbn [out_map] in E; rewrite E; eauto. }
    assert (PD : pinv D (dressw w)) by apply P.
    assert (LD : legal n m N (dressw w) o) by (apply plain_legal; assumption).
    destruct (step_objs _ _ _ SD) as [_ [_ [HN [HK _]]]]. cbn [dressw reps ncon ncost] in HN, HK.
    split.
    + exact P'.
    + rewrite new_cons_app, app_length, HN, I2. reflexivity.
    + rewrite new_costs_app, app_length, HK, I3. reflexivity.
    + intros i Hi. assert (Hv : ncon w <= i) by lia.
      rewrite existsb_app, (I4 i Hv). cbn [existsb orb]. rewrite orb_false_r.
      pose proof (ri_hcon _ (pi_reg _ _ PD) i Hv) as Z. cbn [dressw reps hcon] in Z.
      destruct o; cbn [spans_con callable_op] in *; try reflexivity; destruct (Nat.eqb_spec i0 i) as [Q|Q]; try reflexivity; subst; lia.
    + intros d i Hi. assert (Hv : ncost w <= i) by lia. destruct (I5 d i Hv) as [A B].
      rewrite weights_after_snoc, existsb_app, A, B. cbn [existsb orb]. rewrite orb_false_r.
      pose proof (ri_hcost _ (pi_reg _ _ PD) i Hv) as Z. cbn [dressw reps hcost] in Z.
      destruct o; cbn [weights_after_call spans_cost callable_op] in *; auto; destruct (Nat.eqb_spec i0 i) as [Q|Q]; auto; subst; lia.
    + exact (con_inv_step n m N SF h (dressw w) o (reps w' g) PD LD Co SD I2 I4 I6).
    + exact (cost_inv_step n m N SF h (dressw w) o (reps w' g) PD LD Co SD I3 I5 I7).
    + exact (zero_inv_step n m N SF h (dressw w) o (reps w' g) PD Co SD I8).
  - unfold f_stepped in S. cbn [f_step] in S.
    assert (E : exists s, w' = set_ps w p s).
    { destruct (f_ps_step F (wps w p) po); cbn [out_map] in S; destruct S as [S|[x S]]; try discriminate S; injection S; intros; subst; eauto. }
    destruct E as [s ->].
    apply (finv_keep h w (OPs p po)); try exact I; try reflexivity; try exact P'; try (intros; exact Logic.I); try discriminate.
    + intro Q; exact Q.
    + intro i. split; [reflexivity|auto].
    + intro i. split; reflexivity.
    + intros _. split; reflexivity.
  - unfold f_stepped in S. cbn [f_step] in S. destruct (f_solve F reg e w) as [[b v]|] eqn:So; [|destruct S as [S|[x S]]; discriminate S].
    assert (E : v = w') by (destruct S as [S|[x S]]; [injection S; auto|discriminate S]). subst v.
    destruct (f_solve_parts e w b w' P So) as [p [ps [w1 [r [Ep [Esol [Eu [Eb [Es [W1 [W2 [W3 [W4 [W5 [W6 [W7 [W8 [W9 [W10 [Ec [Ek [SC _]]]]]]]]]]]]]]]]]]]]]].
    pose proof (proj1 P) as PI. pose proof P as [_ L].
    destruct (pi_m _ _ PI p Ep) as [Np _]. cbn [dressw reps wps] in Np. rewrite dress_nu in Np.
    destruct (f_ensure_live F D _ (L p Np)) as [ps' [Eu' [Lp [Up _]]]]. rewrite Eu in Eu'. injection Eu' as <-.
    destruct Lp as [SD [FR CC]]. specialize (CC Up).
    destruct (f_cons_ok u F Ac n m N ps CC SD _ _ (pi_rcon _ _ PI)) as [wc [Ec' [_ [_ C3]]]]. cbn [dressw reps ctl wcon] in Ec'. rewrite Ec in Ec'. injection Ec' as <-.
    destruct (f_costs_ok u F Ac n m N ps CC SD _ _ (pi_rcost _ _ PI)) as [wk [Ek' [_ [_ K3]]]]. cbn [dressw reps ctl wcost] in Ek'. rewrite Ek in Ek'. injection Ek' as <-.
    apply (finv_keep h w (OSolve e)); try exact I; try reflexivity; try exact P'; try assumption; try (intros; exact Logic.I); try discriminate.
    + intro Q; exact Q.
    + intro i. rewrite W2. apply given_same. apply C3.
    + intro i. rewrite W3. destruct (K3 i) as [K1 [K2 [K4 [K5 [K6 K7]]]]]. cbn [dressw reps wcost] in *. split; [apply k_given_eq; assumption|exact K7].
    + intros Q. exfalso. exact (Q e eq_refl).
Qed.
Lemma finv_holds h w : f_follows_protocol F reg n m N world0 h -> f_callable F reg world0 h -> f_honest F reg world0 h ->
  f_run F reg world0 h = Some w -> finv h w.
Proof using Ac SF.
  revert w. induction h as [|o h IH] using rev_ind; intros w FP CA HO R.
  - cbn [f_run] in R. injection R as <-. split; try reflexivity.
    + apply f_pinv_world0.
    + intros d i _. split; reflexivity.
    + intros i d H. unfold con_data_of in H. destruct i; discriminate H.
    + intros i d H. unfold cost_data_of in H. destruct i; discriminate H.
    + intros i _ [].
  - destruct (f_run_snoc F reg o h _ _ R) as [v [Rv S]].
    destruct (each_call_snoc F reg _ o h _ v FP Rv) as [FPh Lg].
    destruct (each_call_snoc F reg _ o h _ v CA Rv) as [CAh Co].
    destruct (each_call_snoc F reg _ o h _ v HO Rv) as [HOh Ho].
    apply (finv_step h v o w); try assumption. apply IH; assumption.
Qed.
(** every history of the protocol is defined *)
Lemma f_run_defined h : f_follows_protocol F reg n m N world0 h -> f_honest F reg world0 h -> exists w, f_run F reg world0 h = Some w.
Proof using Ac SF.
  cut (forall h w, f_pinv F n m N w -> f_follows_protocol F reg n m N w h -> f_honest F reg w h -> exists w', f_run F reg w h = Some w').
  { intros G FP HO. exact (G h world0 (f_pinv_world0 F n m N) FP HO). }
  clear h. induction h as [|o h IH]; intros w P FP HO; cbn [f_run]; [eauto|].
  destruct FP as [Lg FP]. destruct HO as [Ho HO]. pose proof (f_step_ok u F Ac reg n m N SF w o P Lg Ho) as H.
  destruct (f_step F reg w o) as [v|e v|]; [|..]; [eapply IH; eassumption|eapply IH; eassumption|contradiction].
Qed.

Lemma f_free_inv h w : f_follows_protocol F reg n m N world0 h -> f_callable F reg world0 h -> f_honest F reg world0 h ->
  f_run F reg world0 h = Some w -> m_is (ctl w) = None -> f_stale F reg world0 false h = false -> free_bounds (ctl w).
Proof using Ac SF.
  revert w. induction h as [|o h IH] using rev_ind; intros w FP CA HO R NI St.
  - cbn [f_run] in R. injection R as <-. apply (default_free None (vconst 0 0%Qc)).
  - destruct (f_run_snoc F reg o h _ _ R) as [v [Rv S]]. rewrite (f_stale_snoc F reg o h world0 false v Rv) in St.
    destruct (each_call_snoc F reg _ o h _ v FP Rv) as [FPh Lg].
    destruct (each_call_snoc F reg _ o h _ v CA Rv) as [CAh Co].
    destruct (each_call_snoc F reg _ o h _ v HO Rv) as [HOh Ho].
    specialize (IH v FPh CAh HOh Rv).
    destruct (op_cases o) as [PO|[[p [po ->]]|[e ->]]].
    + assert (S' : stepped v o w) by (unfold f_stepped in S; rewrite (plain_f_step F reg v o PO) in S; exact S).
      pose proof (step_bounds _ _ _ S') as B.
      destruct o; cbn [stale_op plain_op] in St, PO; try contradiction PO; try exact B;
        (destruct B as [B1 B2]; unfold free_bounds; rewrite B1; apply (IH (B2 NI) St)).
    + unfold f_stepped in S. cbn [f_step] in S. cbn [stale_op] in St.
      destruct (f_ps_step F (wps v p) po); cbn [out_map] in S; destruct S as [S|[x S]]; try discriminate S; injection S; intros; subst; exact (IH NI St).
    + cbn [stale_op] in St. destruct (spB (ctl v)) as [|i0 t] eqn:Es; [|discriminate St].
      unfold f_stepped in S. cbn [f_step] in S. destruct (f_solve F reg e v) as [[b v']|] eqn:So; [|destruct S as [S|[x S]]; discriminate S].
      assert (E : v' = w) by (destruct S as [S|[x S]]; [injection S; auto|discriminate S]). subst v'.
      pose proof (fi_p _ _ (finv_holds h v FPh CAh HOh Rv)) as P.
      destruct (f_solve_parts e v b w P So) as [p [ps [w1 [r [Ep [Esol [Eu [Eb [Es' [W1 [W2 [W3 [W4 [W5 [W6 [_ [W8 _]]]]]]]]]]]]]]]]].
      assert (Ei : m_is (ctl v) = None) by congruence. specialize (IH Ei St). destruct (f_build_parts F reg e v w1 Eb) as [p' [ps' [wc [wk [q [_ [_ [_ [_ [Eq E1]]]]]]]]]]. cbv zeta in Eq, E1.
      unfold free_bounds in *. rewrite W6, E1. cbn [ctl m_qp set_qpm].
      rewrite Ei in Eq. unfold f_makeQPForm in Eq. cbv zeta in Eq. cbn [ctl wcost wcon m_qp set_qpm set_lists spCost spEq spIneq spB updateConstraintMatrixSize] in Eq.
      rewrite Es in Eq. cbn [qlb qub f_resetQP] in Eq.
      repeat match type of Eq with obind ?x _ = _ => destruct x as [y|] eqn:?; [cbn [obind] in Eq; try (destruct y as [[? ?] ?]); try (destruct y as [? ?])|discriminate Eq] end.
      unfold stack_bounds in *. cbn [for_list] in *.
      injection Eq as <-. cbn [qlb qub].
      match goal with H : Some (qlb (m_qp (ctl v)), qub (m_qp (ctl v)), 0) = Some _ |- _ => injection H; intros; subst end. exact IH.
Qed.
End Trace.
