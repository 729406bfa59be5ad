(** Loop.v -- the receding horizon loop (proofs for C64). *)
From Verif Require Import Base Eigen Spec Preview SpecApi PreviewProofs AutoSpan AutoSpanProofs Constraints ConstraintProofs
  SpecConstraints ConstraintMeaning Checkers Costs SpecCosts CostProofs CostMeaning Properties_Costs Controller Registry SpecController Assembly
  Results Properties_Assembly Properties_Results SpecProtocol Protocol Properties_Protocol SpecEndToEnd SpanData Properties_Registry
  EndToEnd EndToEndQP EndToEndRows EndToEndMain Convex ExactSolver Properties_EndToEnd Determined Properties_Problem StateExt
  SpecMeaning Meaning SpecTail Tail SpecLoop.

(** ** The shifted plan *)
(** the control without its first step, then [ue] *)
Definition shifted (m N : nat) (U ue : nat -> Qc) : nat -> Qc := fun j => if j <? m * (N - 1) then U (m + j) else ue (j - m * (N - 1)).
Definition first (m : nat) (U : nat -> Qc) : nat -> Qc := U.

Lemma one_stepwise ps d : one_step (xDim ps) (uDim ps) d <-> stepwise ps d.
Proof. destruct d; cbn; reflexivity. Qed.
Lemma at_step_holds ps d x U k : at_step ps d x U k <-> holds_at (xDim ps) (uDim ps) d (state_of ps x U k) (control_at (uDim ps) U k).
Proof. destruct d; cbn; reflexivity. Qed.
Lemma holds_at_ext n m d x x' u u' : (forall i, i < n -> x i = x' i) -> (forall i, i < m -> u i = u' i) -> holds_at n m d x u -> holds_at n m d x' u'.
Proof.
  intros Hx Hu.
  assert (AX : forall M i, apply n M x i = apply n M x' i) by (intros; unfold apply; apply sum_ext; intros; rewrite Hx by assumption; reflexivity).
  assert (AU : forall M i, apply m M u i = apply m M u' i) by (intros; unfold apply; apply sum_ext; intros; rewrite Hu by assumption; reflexivity).
  destruct d; cbn; unfold below_both, within_bounds; intros H i Hi; specialize (H i Hi); rewrite ?AX, ?AU, ?Hx, ?Hu in H by assumption; exact H.
Qed.

Section Shift.
Variables (ps : psys) (x U xe ue : nat -> Qc).
Hypothesis R : ready ps.
Notation n := (xDim ps). Notation m := (uDim ps). Notation N := (nrUStep ps).
Hypothesis N1 : 1 <= N.
Hypothesis EQ : equilibrium ps xe ue.
Hypothesis TE : forall i, i < n -> state_of ps x U N i = xe i.
Notation x1 := (state_of ps x U 1).
Notation V := (shifted m N U ue).

Lemma shift_state k : k < N -> forall i, i < n -> state_of ps x1 V k i = state_of ps x U (1 + k) i.
Proof using N1.
  intros Hk i Hi. unfold state_of. rewrite state_at_from. apply state_at_ext; [reflexivity| |exact Hi].
  intros c Hc. unfold shifted, from. destruct (Nat.ltb_spec c (m * (N - 1))) as [L|L]; [f_equal; lia|nia].
Qed.
Lemma shift_control k : S k < N -> forall i, i < m -> control_at m V k i = control_at m U (1 + k) i.
Proof using N1.
  intros Hk i Hi. unfold control_at, shifted. destruct (Nat.ltb_spec (k * m + i) (m * (N - 1))) as [L|L]; [f_equal; lia|nia].
Qed.
Lemma shift_last_control i : i < m -> control_at m V (N - 1) i = ue i.
Proof using N1.
  intros Hi. unfold control_at, shifted. destruct (Nat.ltb_spec ((N - 1) * m + i) (m * (N - 1))) as [L|L]; [nia|f_equal; lia].
Qed.
Lemma shift_end i : i < n -> state_of ps x1 V N i = xe i.
Proof using All.
  intro Hi. replace N with (S (N - 1)) at 2 by lia. unfold state_of. cbn [state_at].
  transitivity (apply n (at_ (psA ps)) xe i + apply m (at_ (psB ps)) ue i + vget (psd ps) i)%Qc; [|apply EQ; exact Hi].
  unfold apply. f_equal. f_equal.
  - apply sum_ext. intros j Hj. f_equal.
    change (state_of ps x1 V (N - 1) j = xe j). rewrite shift_state by lia. replace (1 + (N - 1)) with N by lia. apply TE. exact Hj.
  - apply sum_ext. intros j Hj. f_equal. exact (shift_last_control j Hj).
Qed.
Lemma stacked_final E y W a : (forall i j, i < rows E -> j < n * N -> at_ E i j = 0%Qc) -> a < rows E ->
  apply (fullXDim ps) (at_ E) (stacked_state ps y W) a = apply n (fun a b => at_ E a (n * N + b)) (state_of ps y W N) a.
Proof using R.
  clear N1 EQ TE. intros Z Ha. assert (FX : fullXDim ps = n * N + n) by (rewrite (rd_fx _ R), (rd_nx _ R); lia).
  unfold apply. rewrite FX, sum_plus. rewrite sum_zero by (intros j Hj; rewrite Z by assumption; ring). rewrite Qcplus_0_l.
  apply sum_ext. intros j Hj. f_equal. unfold stacked_state.
  destruct n as [|n'] eqn:En; [lia|].
  assert (Q : (S n' * N + j) / S n' = N) by (rewrite Nat.mul_comm; rewrite Nat.div_add_l by lia; rewrite Nat.div_small by lia; lia).
  assert (M : (S n' * N + j) mod S n' = j) by (rewrite Nat.add_comm, Nat.mul_comm; rewrite Nat.mod_add by lia; apply Nat.mod_small; lia).
  rewrite Q, M. reflexivity.
Qed.
Lemma final_means E f q y W : final_only n N (DTraj E f q) ->
  (imposes ps (DTraj E f q) y W <-> holds_at_end n N (DTraj E f q) (state_of ps y W N)).
Proof using R N1.
  clear EQ TE. intros [C Z]. cbn [imposes means holds_at_end]. unfold traj_means.
  destruct (Nat.eqb_spec (cols E) n) as [Q|Q].
  - assert (n0 : n = 0) by nia. rewrite n0. unfold apply. pose proof (rd_nx _ R) as NX. split; [intros H i Hi; apply (H 0 i); lia|intros H k i _ Hi; apply H; exact Hi].
  - split; intros H i Hi; specialize (H i Hi); rewrite (stacked_final E y W i Z Hi) in *; exact H.
Qed.
Lemma holds_at_end_ext d y y' : (forall i, i < n -> y i = y' i) -> holds_at_end n N d y -> holds_at_end n N d y'.
Proof using.
  intros Hy. destruct d; cbn; try tauto. intros H i Hi. specialize (H i Hi).
  replace (apply n (fun a b => at_ E a (n * N + b)) y' i) with (apply n (fun a b => at_ E a (n * N + b)) y i); [exact H|].
  unfold apply. apply sum_ext. intros. rewrite Hy by assumption. reflexivity.
Qed.
(** what suits the equilibrium and is imposed on the plan is imposed on the shifted plan *)
Lemma shift_imposes d : suits n m N xe ue d -> imposes ps d x U -> imposes ps d x1 V.
Proof using All.
  intros [[OS HE]|[FO HE]] H.
  - apply one_stepwise in OS. apply (imposes_steps ps d _ _ OS). intros k Hk. rewrite (imposes_steps ps d x U OS) in H. rewrite at_step_holds.
    assert (NX := rd_nx _ R).
    assert (ST : forall k', k' < nrXStep ps -> forall u, holds_at n m d (state_of ps x1 V k') u <-> holds_at n m d (if S k' <? nrXStep ps then state_of ps x U (1 + k') else xe) u).
    { intros k' Hk' u. destruct (Nat.ltb_spec (S k') (nrXStep ps)) as [L|L].
      - split; apply holds_at_ext; intros; try reflexivity; [|symmetry]; apply shift_state; lia || assumption.
      - assert (k' = N) as -> by lia. split; apply holds_at_ext; intros; try reflexivity; [|symmetry]; apply shift_end; assumption. }
    destruct (Nat.eqb_spec (con_steps ps d) (nrXStep ps)) as [T|T].
    + (* on states *)
      assert (NU : forall y u u', holds_at n m d y u -> holds_at n m d y u') by (destruct d; cbn [con_steps] in T; try lia; cbn; tauto).
      apply (NU _ ue). rewrite T in *. rewrite (ST k Hk ue). destruct (Nat.ltb_spec (S k) (nrXStep ps)) as [L|L]; [|exact HE].
      specialize (H (1 + k) L). apply at_step_holds in H. eapply NU. exact H.
    + assert (T' : con_steps ps d = N) by (destruct d; cbn [con_steps] in *; congruence). rewrite T' in *.
      assert (Lk : k < nrXStep ps) by lia. rewrite (ST k Lk). destruct (Nat.ltb_spec (S k) (nrXStep ps)) as [L|L]; [|lia].
      destruct (Nat.lt_ge_cases (S k) N) as [L'|L'].
      * specialize (H (1 + k) L'). apply at_step_holds in H. revert H. apply holds_at_ext; [reflexivity|]. intros. symmetry. apply shift_control; assumption.
      * assert (k = N - 1) as -> by lia. replace (1 + (N - 1)) with N by lia.
        revert HE. apply holds_at_ext; [intros; symmetry; apply TE; assumption|intros; symmetry; apply shift_last_control; assumption].
  - destruct d; cbn [final_only] in FO; try contradiction. apply (final_means E f ineq x1 V FO).
    apply (holds_at_end_ext _ xe); [intros; symmetry; apply shift_end; assumption|exact HE].
Qed.
End Shift.

(** ** Along the loop *)
Lemma callable_app o : forall h w w1, callable w h -> run w h = Some w1 -> callable_op w1 o -> callable w (h ++ [o]).
Proof.
  induction h as [|a t IH]; intros w w1 C R H; cbn [app callable run] in *.
  - injection R as <-. split; [exact H|]. destruct (step w o); exact I.
  - destruct C as [C1 C2]. split; [exact C1|]. destruct (step w a); try discriminate R; eauto.
Qed.
Lemma stale_app o : forall h w w1 b, run w h = Some w1 -> stale w b (h ++ [o]) = stale_op w1 (stale w b h) o.
Proof.
  induction h as [|a t IH]; intros w w1 b R; cbn [app stale run] in *.
  - injection R as <-. destruct (step w o); reflexivity.
  - destruct (step w a); try discriminate R; auto.
Qed.
Lemma new_cons_app h g : (forall d, ~ In (ONewCon d) g) -> new_cons (h ++ g) = new_cons h.
Proof.
  intro H. unfold new_cons. rewrite flat_map_app. rewrite <- (app_nil_r (flat_map _ h)) at 2. f_equal.
  induction g as [|o g IH]; [reflexivity|]. cbn [flat_map]. rewrite IH by (intros d Hd; apply (H d); right; exact Hd).
  destruct o; try reflexivity. exfalso. eapply H. left. reflexivity.
Qed.

Section Run.
Variables (n m N : nat) (h0 : list op) (w0 : world) (p : nat).
Hypothesis SF : sizes_fit n m N.
Hypothesis RE0 : reached h0 w0.
Hypothesis CA0 : callable world0 h0.
Hypothesis HO0 : honest world0 h0.
Hypothesis Ep0 : m_ps (ctl w0) = Some p.
Hypothesis NI0 : m_is (ctl w0) = None.
Hypothesis OWN : forall i, In i (spC (ctl w0)) -> 0 < hcon w0 i.

Record loop_inv (g : list op) (w : world) : Prop := {
  li_re : reached (h0 ++ g) w;
  li_ca : callable world0 (h0 ++ g);
  li_ho : honest world0 (h0 ++ g);
  li_ps : m_ps (ctl w) = Some p;
  li_is : m_is (ctl w) = None;
  li_c : spC (ctl w) = spC (ctl w0);
  li_b : spB (ctl w) = spB (ctl w0);
  li_h : hcon w = hcon w0;
  li_data : (forall i, con_data_of (h0 ++ g) i = con_data_of h0 i) /\ new_cons (h0 ++ g) = new_cons h0;
  li_stale : (spB (ctl w0) <> [] \/ stale world0 false h0 = false) -> (spB (ctl w) <> [] \/ stale world0 false (h0 ++ g) = false);
  li_sys : psA (wps w p) = psA (wps w0 p) /\ psB (wps w p) = psB (wps w0 p) /\ psd (wps w p) = psd (wps w0 p) /\ same_dims (wps w p) (wps w0 p);
  li_costs : (nonneg_weights h0 -> nonneg_weights (h0 ++ g))
}.
Lemma loop_inv_start : loop_inv [] w0.
Proof using RE0 CA0 HO0 Ep0 NI0. constructor; rewrite ?app_nil_r; auto; repeat split. Qed.

Lemma loop_inv_turn g w e b w1 x w2 : loop_inv g w -> follows_protocol n m N world0 (h0 ++ g ++ [OSolve e; OPs p (PXInit x)]) ->
  solve e w = Some (b, w1) -> step w1 (OPs p (PXInit x)) = Ok w2 ->
  loop_inv (g ++ [OSolve e; OPs p (PXInit x)]) w2 /\ x0 (wps w2 p) = x.
Proof using SF OWN Ep0 NI0.
  intros L FP So St. assert (FP1 : follows_protocol n m N world0 (h0 ++ g)) by (rewrite app_assoc in FP; eapply follows_prefix; exact FP).
  assert (FP2 : follows_protocol n m N world0 (((h0 ++ g) ++ [OSolve e]) ++ [OPs p (PXInit x)])) by (rewrite <- !app_assoc; exact FP).
  destruct L as [RE CA HO Ep NI EC EB EH [ED EN] ST [EA [EBB [Edd SD]]] NW].
  pose proof (sv_pinv n m N SF _ _ FP1 RE) as P.
  destruct (solve_keeps_is _ _ _ _ So) as [K1 K2].
  destruct (solve_lists e w b w1 (pi_reg _ _ P) So) as [H1 [H2 [L1 [_ [_ [L4 _]]]]]]. cbv zeta in L1, L4.
  assert (KC : spC (ctl w1) = spC (ctl w)).
  { rewrite L1. apply filter_all. intros i Hi. unfold survives. rewrite EH, (proj2 (Nat.eqb_neq _ 0)); [reflexivity|]. rewrite EC in Hi. specialize (OWN i Hi). lia. }
  assert (KB : spB (ctl w1) = spB (ctl w)).
  { rewrite L4. apply filter_all. intros i Hi. unfold survives. rewrite EH, (proj2 (Nat.eqb_neq _ 0)); [reflexivity|].
    rewrite (ri_b _ (pi_reg _ _ P)) in Hi. apply in_of_type in Hi as [Hi _]. rewrite EC in Hi. specialize (OWN i Hi). lia. }
  assert (S : solved n m N (h0 ++ g) w p e b w1) by (constructor; assumption).
  destruct (sd_ps _ _ _ _ _ _ _ _ _ S) as [R [D1 [D2 [X0 [EA1 [EB1 [Ed1 _]]]]]]].
  assert (RE1 : reached ((h0 ++ g) ++ [OSolve e]) w1) by (unfold reached in *; rewrite run_app, RE; cbn [obind run step]; rewrite So; reflexivity).
  assert (RE2 : reached (((h0 ++ g) ++ [OSolve e]) ++ [OPs p (PXInit x)]) w2) by (unfold reached in *; rewrite run_app, RE1; cbn [obind run]; rewrite St; reflexivity).
  assert (EG : h0 ++ g ++ [OSolve e; OPs p (PXInit x)] = ((h0 ++ g) ++ [OSolve e]) ++ [OPs p (PXInit x)]) by (rewrite <- !app_assoc; reflexivity).
  pose proof (follows_app_last _ _ _ _ _ _ _ FP2 RE1) as Lg. cbn [legal] in Lg. destruct Lg as [Np Sx].
  assert (Xd : xDim (wps w1 p) = n) by apply D1.
  cbn [step ps_step] in St. injection St as Ew.
  assert (Ec : ctl w2 = ctl w1) by (rewrite <- Ew; reflexivity). assert (Eh : hcon w2 = hcon w1) by (rewrite <- Ew; reflexivity).
  assert (Ewp : wps w2 p = ps_xInit (wps w1 p) x) by (rewrite <- Ew; cbn; unfold upd; rewrite Nat.eqb_refl; reflexivity).
  split; [|rewrite Ewp; reflexivity].
  constructor.
  - rewrite EG. exact RE2.
  - rewrite EG. apply (callable_app _ _ _ w1); [apply (callable_app _ _ _ w); [exact CA|exact RE|exact I]|exact RE1|exact I].
  - rewrite EG. apply (honest_snoc _ _ _ w1); [apply (honest_snoc _ _ _ w); [exact HO|exact RE|exact I]|exact RE1|cbn; congruence].
  - congruence.
  - congruence.
  - congruence.
  - congruence.
  - congruence.
  - rewrite EG. assert (NE : new_cons (((h0 ++ g) ++ [OSolve e]) ++ [OPs p (PXInit x)]) = new_cons (h0 ++ g)).
    { rewrite new_cons_app, new_cons_app; [reflexivity| |]; intros d [Q|[]]; discriminate Q. }
    split; [|congruence]. intro i. rewrite <- ED. unfold con_data_of. rewrite NE, !existsb_app. cbn [existsb spans_con]. rewrite !orb_false_r. reflexivity.
  - intro HS. rewrite EG. rewrite Ec, KB. destruct (ST HS) as [Q|Q]; [left; exact Q|].
    destruct (spB (ctl w)) as [|i l] eqn:Eb; [right|left; discriminate]. rewrite (stale_app _ _ _ w1) by exact RE1. rewrite (stale_app _ _ _ w) by exact RE.
    cbn [stale_op]. rewrite Eb, Q. reflexivity.
  - rewrite Ewp. cbn [ps_xInit psA psB psd]. split; [congruence|]. split; [congruence|]. split; [congruence|].
    eapply same_dims_trans; [|exact SD]. exact D2.
  - intro HN. destruct (NW HN) as [N1 N2]. rewrite EG. split.
    + intros i y Hi. apply in_app_or in Hi as [Hi|[Hi|[]]]; [|discriminate Hi]. apply in_app_or in Hi as [Hi|[Hi|[]]]; [|discriminate Hi]. apply (N1 i y Hi).
    + intros i v Hi. apply in_app_or in Hi as [Hi|[Hi|[]]]; [|discriminate Hi]. apply in_app_or in Hi as [Hi|[Hi|[]]]; [|discriminate Hi]. apply (N2 i v Hi).
Qed.
Lemma loop_inv_holds g w T : closed_loop p w0 g w T -> follows_protocol n m N world0 (h0 ++ g) -> loop_inv g w.
Proof using SF RE0 CA0 HO0 Ep0 NI0 OWN.
  induction 1 as [|g w T e w1 x w2 CL IH EX So Sx Px St]; intro FP; [apply loop_inv_start|].
  eapply loop_inv_turn; [apply IH; rewrite app_assoc in FP; eapply follows_prefix; exact FP|exact FP|exact So|exact St].
Qed.
End Run.
