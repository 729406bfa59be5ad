(** Properties_Ledger.v -- C63: what every solve minimises, whatever was solved before. *)
From Verif Require Import Base Eigen Spec Preview SpecApi PreviewProofs AutoSpan AutoSpanProofs Constraints ConstraintProofs
  SpecConstraints ConstraintMeaning Checkers Costs SpecCosts CostProofs CostMeaning Properties_Costs Controller Registry SpecController Assembly
  Results Properties_Assembly Properties_Results SpecProtocol Protocol Properties_Protocol SpecEndToEnd SpanData Properties_Registry
  EndToEnd EndToEndQP EndToEndRows EndToEndMain Convex ExactSolver Properties_EndToEnd Determined Properties_Problem StateExt InitialState Properties_InitialState SpecLedger Ledger.

Theorem C63_end_to_end : forall n m N h w p e w',
  sizes_fit n m N -> follows_protocol n m N world0 h -> callable world0 h -> honest world0 h -> reached h w ->
  m_ps (ctl w) = Some p -> m_is (ctl w) = None ->
  (* the registered trajectory bounds were given with the same size *)
  (forall i, In i (spC (ctl w)) -> even_bounds h i) ->
  (* no bounds of a removed constraint are left *)
  (spB (ctl w) <> [] \/ stale world0 false h = false) ->
  exact_solver e -> solve e w = Some (true, w') ->
  let ps := wps w' p in
  let k := fullUDim ps in
  let U := vget (m_ctrl (ctl w')) in
  let admissible := fun V => all_imposed ps h (spC (ctl w)) V /\ (spB (ctl w) = [] -> representable k V) in
  let cost := fun V => (effective_cost ps h e (spCost (ctl w)) V + regularization k V)%Qc in
  (* the system is the user's *)
  x0 ps = x0 (wps w p) /\ psA ps = psA (wps w p) /\ psB ps = psB (wps w p) /\ psd ps = psd (wps w p) /\ same_dims ps (wps w p) /\
  (* trajectory() is its trajectory under control() *)
  is_trajectory ps (x0 ps) (m_ctrl (ctl w')) (m_traj (ctl w')) /\
  (* control() is admissible and optimal *)
  admissible U /\ (forall V, admissible V -> (cost U <= cost V)%Qc) /\
  (* and the only one *)
  (nonneg_weights h -> forall V, admissible V -> (cost V <= cost U)%Qc -> forall i, i < k -> V i = U i).
Proof.
  intros n m N h w p e w' SF FP CA HO RE Ep NI NSc ST EX So. cbv zeta.
  pose proof (sv_pinv n m N SF h w FP RE) as P. destruct (pi_m _ _ P p Ep) as [Np _].
  destruct (C35_success_publishes h w p e w' RE HO Ep NI Np So) as [Es [Tr [X0 [EA [EB [Ed SD]]]]]]. cbv zeta in Es, Tr, X0, EA, EB, Ed, SD.
  pose (S := Build_solved n m N h w p e true w' SF FP RE HO Ep So).
  destruct (EX _ _ _ _ _ Es (sv_called n m N SF h w p e true w' FP RE HO Ep NI So)) as [Sz [Fe Op]].
  assert (Fq : forall V, feasible (m_qp (ctl w')) V <-> _) by (intro V; exact (sv_feasible n m N SF h w p e true w' FP RE HO Ep NI So V CA ST NSc)).
  assert (Vq : forall V, qp_value (m_qp (ctl w')) V = _) by (intro V; exact (led_value n m N h w p e true w' S CA V NI)).
  do 5 (split; [assumption|]). split; [exact Tr|]. split; [apply Fq; exact Fe|]. split.
  - intros V AV. apply Fq in AV. specialize (Op V AV). rewrite !Vq in Op. qc_lra.
  - intros NW V AV Le i Hi. destruct (C27_cost_matrix n m N h w p e true w' SF FP NW RE Ep NI So) as [_ [_ [Kz [_ [_ PD]]]]]. cbv zeta in Kz, PD.
    symmetry. apply (minimizer_unique (m_qp (ctl w')) (vget (m_ctrl (ctl w'))) V PD Fe).
    + apply Fq. exact AV.
    + exact Op.
    + rewrite !Vq. qc_lra.
    + rewrite Kz. exact Hi.
Qed.
Print Assumptions C63_end_to_end.

Theorem C63_end_to_end_initial_state : forall n m N h w p s e w',
  sizes_fit n m N -> follows_protocol n m N world0 h -> callable world0 h -> honest world0 h -> reached h w ->
  m_ps (ctl w) = Some p -> m_is (ctl w) = Some s ->
  (forall i, In i (spC (ctl w)) -> even_bounds h i) ->
  (spB (ctl w) <> [] \/ stale world0 false h = false) ->
  exact_solver e -> solve e w = Some (true, w') ->
  let ps := wps w' p in
  let k := fullUDim ps in
  let U := vget (m_ctrl (ctl w')) in
  exists x, initialState w' = Some x /\ vsize x = xDim ps /\
  let admissible := fun V => all_imposed_from ps h (spC (ctl w)) (vget x) V /\ (spB (ctl w) = [] -> representable k V) in
  let cost := fun V => (effective_cost_from ps h e (spCost (ctl w)) (vget x) V + regularization k V)%Qc in
  (* the system is the user's *)
  psA ps = psA (wps w p) /\ psB ps = psB (wps w p) /\ psd ps = psd (wps w p) /\ same_dims ps (wps w p) /\
  (* the initial state is within its bounds, trajectory() starts there *)
  within_bounds (xDim ps) (vget (isx0lb s)) (vget (isx0ub s)) (vget x) /\
  is_trajectory ps x (m_ctrl (ctl w')) (m_traj (ctl w')) /\
  (* control() is admissible from there and optimal *)
  admissible U /\ (forall V, admissible V -> (cost U <= cost V)%Qc) /\
  (* and the only one *)
  (nonneg_weights h -> forall V, admissible V -> (cost V <= cost U)%Qc -> forall i, i < k -> V i = U i).
Proof.
  intros n m N h w p s e w' SF FP CA HO RE Ep Is NSc ST EX So. cbv zeta.
  pose (S := Build_solved n m N h w p e true w' SF FP RE HO Ep So).
  destruct (sd_ps _ _ _ _ _ _ _ _ _ S) as [R [D [D' _]]].
  destruct (pi_m _ _ (sd_pinv _ _ _ _ _ _ _ _ _ S) p Ep) as [Np _].
  destruct (si_dims n m N SF h w p s e true w' S Is) as [Dn [Dk [_ [_ [_ [Z3 _]]]]]].
  assert (Dnw : xDim (wps w p) = n) by (rewrite <- Dn; symmetry; apply D'). assert (Dkw : fullUDim (wps w p) = m * N) by (rewrite <- Dk; symmetry; apply D').
  assert (Vs : vsize (m_sol (ctl w')) = xDim (wps w p) + fullUDim (wps w p)).
  { destruct (solve_qp _ _ _ _ So) as [u [Eb [Q1 [Q2 [Q3 [_ [_ [_ [_ [_ Q5]]]]]]]]]]. rewrite <- Q1, <- Q2, <- Q3 in Q5.
    destruct (EX _ _ _ _ _ Q5 (si_called n m N SF h w p s e true w' S Is)) as [Sz _]. rewrite Sz, Z3. lia. }
  destruct (C35_success_publishes_initial_state h w p s e w' RE HO Ep Is Np So Vs) as [Es [Ct [[x [Ex [Xz [Xs Tr]]]] [_ [EA [EB [Ed SD]]]]]]].
  cbv zeta in Es, Ct, Ex, Xz, Xs, Tr, EA, EB, Ed, SD.
  destruct (EX _ _ _ _ _ Es (si_called n m N SF h w p s e true w' S Is)) as [Sz [Fe Op]]. exists x. split; [exact Ex|]. split; [exact Xz|].
  do 4 (split; [assumption|]).
  assert (Fq : forall X, feasible (m_qp (ctl w')) X <-> _) by (intro X; exact (si_feasible n m N SF h w p s e true w' S Is X CA ST NSc)).
  assert (Vq : forall X, qp_value (m_qp (ctl w')) X = _) by (intro X; exact (led_value_from n m N h w p e true w' S CA s X Is)). cbv zeta in Vq.
  rewrite Dk, Dn in Ct. rewrite Dn in Xs, Xz. rewrite Dk.
  set (sol := vget (m_sol (ctl w'))) in *. set (U := vget (m_ctrl (ctl w'))) in *.
  (* admissible controls from x are the feasible points above x *)
  assert (EI : forall y V, (forall i, i < n -> y i = vget x i) ->
     (all_imposed_from (wps w' p) h (spC (ctl w)) y V <-> all_imposed_from (wps w' p) h (spC (ctl w)) (vget x) V)).
  { intros y V Hy. unfold all_imposed_from. split; intros H i d Hi Hd; specialize (H i d Hi Hd); revert H; apply imposes_ext; auto; intros j Hj; rewrite Dn in Hj; rewrite Hy by exact Hj; reflexivity. }
  assert (EU : forall V V', (forall i, i < m * N -> V i = V' i) ->
     (all_imposed_from (wps w' p) h (spC (ctl w)) (vget x) V <-> all_imposed_from (wps w' p) h (spC (ctl w)) (vget x) V')).
  { intros V V' Hy. unfold all_imposed_from. split; intros H i d Hi Hd; specialize (H i d Hi Hd); revert H; apply imposes_ext; auto; intros j Hj; rewrite Dk in Hj; rewrite Hy by exact Hj; reflexivity. }
  assert (Us : forall j, j < m * N -> ctrl_part n sol j = U j) by (intros j Hj; symmetry; apply Ct; exact Hj).
  destruct (proj1 (Fq sol) Fe) as [BX [AX RX]].
  assert (BXx : within_bounds n (vget (isx0lb s)) (vget (isx0ub s)) (vget x)) by (intros i Hi; rewrite Xs by exact Hi; apply BX; exact Hi).
  assert (AU : all_imposed_from (wps w' p) h (spC (ctl w)) (vget x) U).
  { apply (EU (ctrl_part n sol)); [exact Us|]. apply (EI sol); [intros; symmetry; auto|exact AX]. }
  split; [rewrite Dn; exact BXx|]. split; [exact Tr|].
  split; [split; [exact AU|intro Q; eapply representable_ext; [exact Us|exact (RX Q)]]|].
  assert (FC : forall V, (all_imposed_from (wps w' p) h (spC (ctl w)) (vget x) V /\ (spB (ctl w) = [] -> representable (m * N) V)) -> feasible (m_qp (ctl w')) (cat n (vget x) V)).
  { intros V [A1 A2]. apply Fq. split; [intros i Hi; rewrite cat_l by exact Hi; apply BXx; exact Hi|]. split.
    - apply (EI (cat n (vget x) V)); [intros; apply cat_l; assumption|]. apply (EU V); [intros; symmetry; apply cat_r|exact A1].
    - intro Q. eapply representable_ext; [intros; symmetry; apply cat_r|exact (A2 Q)]. }
  assert (TC : forall y V V', (forall i, i < n -> y i = vget x i) -> (forall i, i < m * N -> V i = V' i) ->
     effective_cost_from (wps w' p) h e (spCost (ctl w)) y V = effective_cost_from (wps w' p) h e (spCost (ctl w)) (vget x) V').
  { intros y V V' Hy HV. unfold effective_cost_from. apply lsum_ext. intros i Hi. destruct (cost_data_of h i) as [d|] eqn:Ed0; [|reflexivity].
    destruct (per_step (wps w' p) d).
    - unfold running. apply over_ext. intros a Ia. destruct (led_solve n m N h w p e true w' S CA i Hi) as [[LH _] _].
      unfold cost_history in LH. rewrite Forall_forall in LH. destruct (LH a Ia) as [_ [Ra Da]].
      assert (Dx : xDim (snd a) = n) by apply Da. assert (Du : fullUDim (snd a) = m * N) by apply Da.
      apply cost_value_ext_x; [exact Ra|rewrite Dx; exact Hy|rewrite Du; exact HV].
    - apply cost_value_ext_x; [exact R|rewrite Dn; exact Hy|rewrite Dk; exact HV]. }
  assert (RG : forall V V', (forall i, i < m * N -> V i = V' i) -> regularization (m * N) V = regularization (m * N) V').
  { intros V V' HV. unfold regularization. do 2 f_equal. apply sum_ext. intros i Hi. rewrite HV by exact Hi. reflexivity. }
  assert (VD : forall y V, (forall i, i < n -> y i = vget x i) -> (forall i, i < m * N -> ctrl_part n y i = V i) ->
     qp_value (m_qp (ctl w')) y = (effective_cost_from (wps w' p) h e (spCost (ctl w)) (vget x) V + regularization (m * N) V
       + (objective n (at_ (qQ (m_qp (ctl w')))) (vget (qc (m_qp (ctl w')))) (vget x) - effective_cost_from (wps w' p) h e (spCost (ctl w)) (vget x) (fun _ => 0)))%Qc).
  { intros y V Hy HV. rewrite Vq. rewrite (TC y _ V Hy HV), (TC y _ (fun _ => 0%Qc) Hy (fun i _ => eq_refl)), (RG _ V HV), (objective_ext n _ _ y (vget x) Hy). reflexivity. }
  assert (Vsol := VD sol U (fun i Hi => eq_sym (Xs i Hi)) Us).
  assert (Vcat : forall V, qp_value (m_qp (ctl w')) (cat n (vget x) V) = _) by (intro V; exact (VD (cat n (vget x) V) V (fun i Hi => cat_l n _ V i Hi) (fun i _ => cat_r n _ V i))).
  split.
  - intros V AV. specialize (Op _ (FC V AV)). rewrite Vsol, Vcat in Op. qc_lra.
  - intros NW V AV Le i Hi. destruct (is_cost_block n m N h w p s e true w' S Is NW) as [_ GE]. cbv zeta in GE.
    pose proof (above_pos_def _ _ GE) as PD. destruct (Qc_eq_dec (V i) (U i)) as [E|Ne]; [exact E|exfalso].
    pose proof (FC V AV) as FV. pose proof (feasible_mid _ _ _ Fe FV) as FM. specialize (Op _ FM).
    assert (OM := objective_mid (vsize (qc (m_qp (ctl w')))) (at_ (qQ (m_qp (ctl w')))) (vget (qc (m_qp (ctl w')))) sol (cat n (vget x) V)).
    fold (qp_value (m_qp (ctl w')) sol) (qp_value (m_qp (ctl w')) (cat n (vget x) V)) (qp_value (m_qp (ctl w')) (mid sol (cat n (vget x) V))) in OM.
    set (dX := (fun i => sol i - cat n (vget x) V i)%Qc) in *.
    assert (QD : quad (vsize (qc (m_qp (ctl w')))) (at_ (qQ (m_qp (ctl w')))) dX
               = quad (m * N) (fun i j => at_ (qQ (m_qp (ctl w'))) (n + i) (n + j)) (ctrl_part n dX)).
    { rewrite Z3, quad_blocks.
      assert (H0 : forall i, i < n -> dX i = 0%Qc) by (intros a Ha; unfold dX; rewrite cat_l, Xs by exact Ha; ring).
      assert (E1 : quad n (at_ (qQ (m_qp (ctl w')))) dX = 0%Qc) by (unfold quad; apply sum_zero; intros a Ha; rewrite H0 by exact Ha; ring).
      rewrite E1, (sum_zero (m * N)); [ring|]. intros j Hj. rewrite sum_zero; [ring|]. intros a Ha. rewrite H0 by exact Ha. ring. }
    rewrite QD in OM.
    assert (PP : (0 < quad (m * N) (fun i j => at_ (qQ (m_qp (ctl w'))) (n + i) (n + j)) (ctrl_part n dX))%Qc).
    { apply PD. exists i. split; [exact Hi|]. unfold dX, ctrl_part. fold (ctrl_part n sol i) (ctrl_part n (cat n (vget x) V) i). rewrite cat_r, Us by exact Hi.
      intro E. apply Ne. replace (V i) with (U i - (U i - V i))%Qc by ring. rewrite E. ring. }
    assert (Le' : (qp_value (m_qp (ctl w')) (cat n (vget x) V) <= qp_value (m_qp (ctl w')) sol)%Qc) by (rewrite Vsol, Vcat; qc_lra).
    set (a := qp_value (m_qp (ctl w')) sol) in *. set (b := qp_value (m_qp (ctl w')) (cat n (vget x) V)) in *. set (c := qp_value (m_qp (ctl w')) (mid sol (cat n (vget x) V))) in *.
    assert (H8 : (0 < half * (half * half))%Qc) by reflexivity. pose proof (qc_mul_pos _ _ H8 PP) as PP'.
    assert (HB : (half * (a + b) <= a)%Qc) by (apply half_le; [apply Qcle_refl|exact Le']).
    qc_lra.
Qed.
Print Assumptions C63_end_to_end_initial_state.

(** a registered cost that was not solved with yet counts once: C36 and C49 are the case of a single update *)
Theorem C63_first_solve : forall n m N h w p e b w',
  sizes_fit n m N -> follows_protocol n m N world0 h -> callable world0 h -> honest world0 h -> reached h w ->
  m_ps (ctl w) = Some p -> fresh_steps (wps w p) h (spCost (ctl w)) -> solve e w = Some (b, w') ->
  forall x V, effective_cost (wps w' p) h e (spCost (ctl w)) V = total_cost (wps w' p) h (spCost (ctl w)) V /\
    effective_cost_from (wps w' p) h e (spCost (ctl w)) x V = total_cost_from (wps w' p) h (spCost (ctl w)) x V.
Proof.
  intros n m N h w p e b w' SF FP CA HO RE Ep FS So x V.
  pose (S := Build_solved n m N h w p e b w' SF FP RE HO Ep So). destruct (sd_ps _ _ _ _ _ _ _ _ _ S) as [R [_ [D' _]]].
  pose proof (fresh_steps_dims _ _ _ _ D' FS) as FS'.
  assert (EU : forall i d, In i (spCost (ctl w)) -> cost_data_of h i = Some d -> per_step (wps w' p) d = true ->
     updates_of (h ++ [OSolve e]) i = repeat (weights_of h i, wps w' p) 1).
  { intros i d Hi Ed PS. destruct (FS' i d Hi Ed PS) as [AD C1].
    rewrite (updates_snoc h w (OSolve e) w' i RE (led_stepped _ _ _ _ _ _ _ _ _ S)). cbn [ledger_op]. rewrite Ep, C1, (added_updates i h w RE AD). reflexivity. }
  unfold effective_cost, effective_cost_from, total_cost, total_cost_from. split; apply lsum_ext; intros i Hi; destruct (cost_data_of h i) as [d|] eqn:Ed; try reflexivity;
    destruct (per_step (wps w' p) d) eqn:PS; try reflexivity; rewrite (EU i d Hi Ed PS).
  - rewrite effective_repeat, times_1. destruct d; apply Qcplus_0_r.
  - rewrite running_repeat, times_1. reflexivity.
Qed.
Print Assumptions C63_first_solve.

Lemma new_cons_solves h es : new_cons (h ++ map OSolve es) = new_cons h.
Proof.
  unfold new_cons. rewrite flat_map_app. rewrite <- (app_nil_r (flat_map _ h)) at 2. f_equal.
  induction es as [|e es IH]; [reflexivity|]. cbn [map flat_map]. rewrite IH. reflexivity.
Qed.
Lemma spans_solves (f : op -> bool) h es : (forall e, f (OSolve e) = false) -> existsb f (h ++ map OSolve es) = existsb f h.
Proof.
  intro F. rewrite existsb_app. assert (E : existsb f (map OSolve es) = false) by (induction es as [|e es IH]; [reflexivity|]; cbn; rewrite F; exact IH).
  rewrite E. apply orb_false_r.
Qed.
Lemma con_data_solves h es i : con_data_of (h ++ map OSolve es) i = con_data_of h i.
Proof. unfold con_data_of. rewrite new_cons_solves, spans_solves by reflexivity. reflexivity. Qed.
Lemma cost_data_solves h es i : cost_data_of (h ++ map OSolve es) i = cost_data_of h i.
Proof. unfold cost_data_of. rewrite new_costs_solves, spans_solves by reflexivity. reflexivity. Qed.
Lemma callable_solves es : forall h w, callable w h -> callable w (h ++ map OSolve es).
Proof.
  induction h as [|o t IH]; intros w H; cbn [app callable] in *.
  - clear H. revert w. induction es as [|e r IH]; intro w; cbn [map callable]; [exact I|]. split; [exact I|]. cbn [step]. destruct (solve e w) as [[? ?]|]; [apply IH|exact I].
  - destruct H as [H1 H2]. split; [exact H1|]. destruct (step w o); auto.
Qed.

(** ** Solving k times in a row *)
Theorem C63_kth_solve : forall n m N h w p es u e w',
  sizes_fit n m N -> follows_protocol n m N world0 (h ++ map OSolve es) -> callable world0 h -> honest world0 h -> reached h w ->
  m_ps (ctl w) = Some p -> m_is (ctl w) = None ->
  (forall i, In i (spC (ctl u)) -> even_bounds h i) ->
  (spB (ctl u) <> [] \/ stale world0 false (h ++ map OSolve es) = false) ->
  (* the per-step costs were not solved with before; the user holds the registered costs *)
  fresh_steps (wps w p) h (spCost (ctl w)) -> (forall i, In i (spCost (ctl w)) -> 0 < hcost w i) ->
  run w (map OSolve es) = Some u -> exact_solver e -> solve e u = Some (true, w') ->
  let ps := wps w' p in
  let k := fullUDim ps in
  let U := vget (m_ctrl (ctl w')) in
  let admissible := fun V => all_imposed ps h (spC (ctl u)) V /\ (spB (ctl u) = [] -> representable k V) in
  let cost := fun V => (kth_cost (S (length es)) ps h (spCost (ctl w)) V + regularization k V)%Qc in
  admissible U /\ (forall V, admissible V -> (cost U <= cost V)%Qc).
Proof.
  intros n m N h w p es u e w' SF FP CA HO RE Ep NI NSc ST FS OK Ru EX So. cbv zeta.
  destruct (repeated n m N h w p SF RE Ep OK es u FP Ru) as [Re [Eu [Lu [Hu [Up Le]]]]].
  assert (Iu : m_is (ctl u) = None).
  { clear - Ru NI. revert u Ru. induction es as [|e0 es IH] using rev_ind; intros u Ru; [cbn in Ru; injection Ru as <-; exact NI|].
    rewrite map_app in Ru. cbn [map] in Ru. apply run_solve in Ru as [v [b [Rv So]]]. destruct (solve_keeps_is _ _ _ _ So) as [-> _]. apply IH. exact Rv. }
  pose proof (honest_solves es h world0 HO) as HOu. pose proof (callable_solves es h world0 CA) as CAu.
  destruct (C63_end_to_end n m N (h ++ map OSolve es) u p e w' SF FP CAu HOu Re Eu Iu) as [_ [_ [_ [_ [SDu [_ [Ad [Op _]]]]]]]];
    [intros i Hi; unfold even_bounds; rewrite new_cons_solves; apply NSc; exact Hi|exact ST|exact EX|exact So|].
  cbv zeta in *.
  assert (AI : forall V, all_imposed (wps w' p) (h ++ map OSolve es) (spC (ctl u)) V <-> all_imposed (wps w' p) h (spC (ctl u)) V).
  { intro V. unfold all_imposed. split; intros H i d Hi Hd; apply (H i d Hi); [rewrite con_data_solves|rewrite con_data_solves in Hd]; exact Hd. }
  assert (Le' : forall i, cnt i (spCost (ctl w)) = 1 ->
    updates_of ((h ++ map OSolve es) ++ [OSolve e]) i = updates_of h i ++ repeat (weights_of h i, wps w' p) (S (length es))).
  { intros i C1. assert (St : stepped u (OSolve e) w') by (left; cbn [step]; rewrite So; reflexivity).
    rewrite (updates_snoc _ u (OSolve e) w' i Re St). cbn [ledger_op]. rewrite Eu, Lu, C1, (Le i C1), weights_solves, (repeat_last (weights_of h i, wps w' p) (length es)), app_assoc. cbn [repeat].
    destruct es as [|e0 es']; [reflexivity|].
    destruct (solve_objs _ _ _ _ So) as [p' [ps [wc [wk [Ep' [Eps [_ [_ [Hw _]]]]]]]]]. rewrite Eu in Ep'. injection Ep' as <-.
    assert (Ex : wps w' p = wps u p).
    { rewrite Hw. unfold upd. rewrite Nat.eqb_refl. unfold ensureUpdated in Eps. rewrite (Up ltac:(discriminate)) in Eps. injection Eps as <-. reflexivity. }
    rewrite Ex. reflexivity. }
  assert (SDw : same_dims (wps w' p) (wps w p)).
  { pose proof (sv_pinv n m N SF h w (follows_prefix _ _ _ _ _ _ FP) RE) as P. destruct (pi_m _ _ P p Ep) as [Np _]. destruct (pi_ps _ _ P p Np) as [D1 _].
    pose proof (sv_pinv n m N SF _ u FP Re) as P'. destruct (pi_m _ _ P' p Eu) as [Np' _]. destruct (pi_ps _ _ P' p Np') as [D2 _].
    eapply same_dims_trans; [exact SDu|]. eapply same_dims_trans; [exact D2|apply same_dims_sym; exact D1]. }
  pose proof (fresh_steps_dims _ _ _ _ SDw FS) as FS'.
  assert (EC : forall V, effective_cost (wps w' p) (h ++ map OSolve es) e (spCost (ctl u)) V = kth_cost (S (length es)) (wps w' p) h (spCost (ctl w)) V).
  { intro V. unfold effective_cost, kth_cost. rewrite Lu. apply lsum_ext. intros i Hi. rewrite cost_data_solves, weights_solves.
    destruct (cost_data_of h i) as [d|] eqn:Ed; [|reflexivity]. cbv zeta. destruct (per_step (wps w' p) d) eqn:PS; [|reflexivity].
    destruct (FS' i d Hi Ed PS) as [AD C1]. specialize (Le' i C1). rewrite (added_updates i h w RE AD) in Le'. rewrite Le'. apply effective_repeat. }
  split; [split; [apply AI; apply Ad|apply Ad]|]. intros V [A1 A2]. rewrite <- !EC. apply Op. split; [apply AI; exact A1|exact A2].
Qed.
Print Assumptions C63_kth_solve.

(** the controller of C36 solved a second time: x_k <= 1, now 2 * 1/2 sum_k (x_k - 4)^2 + 3/2 (x_2 - 2)^2 *)
Definition cert63 : cert :=
  Cert [qz 1; qz 0] [] [qz 0; (qz 6 - q1em6)%Qc; qz 9] []
       [(qz 5, [qz 1; qz 1]); ((qz 2 + q1em6)%Qc, [qz 1]); (q1em6, [qz 0; qz 1])].
Definition env63 : senv := env_certs [cert36; cert63].
Example C63_example :
  sizes_fit 1 1 2 /\ follows_protocol 1 1 2 world0 (ex36 ++ map OSolve [env63]) /\ callable world0 ex36 /\ honest world0 ex36 /\
  exact_solver env63 /\ (forall i, even_bounds ex36 i) /\ added_since_solve ex36 0 /\
  match run world0 ex36 with
  | Some w => match m_ps (ctl w), m_is (ctl w), run w (map OSolve [env63]) with
              | Some p, None, Some u =>
                  negb (match spB (ctl u) with [] => true | _ => false end) && Nat.eqb (cnt 0 (spCost (ctl w))) 1 && forallb (fun i => 0 <? hcost w i) (spCost (ctl w)) &&
                  per_step (wps w p) (DTrajC (mlit [[1]]%Z) (vlit [4]%Z)) && negb (per_step (wps w p) (DTargetC (mlit [[1]]%Z) (vlit [2]%Z))) &&
                  match solve env63 u with
                  | Some (true, w') => forallb (fun xy => qeqb (fst xy) (snd xy)) (combine (vdump (m_ctrl (ctl w'))) (map qz [1; 0]%Z))
                  | _ => false end
              | _, _, _ => false end
  | None => false end = true.
Proof.
  destruct C36_example as [SF [_ [CA [HO [_ [_ [EV [_ [_ [AD _]]]]]]]]]].
  split; [exact SF|]. split.
  { apply followsb_ok; [|vm_compute; reflexivity]. intros e H. cbn in H. repeat (destruct H as [H|H]; [try discriminate H|]); try contradiction; injection H as <-; apply env_certs_sane. }
  split; [exact CA|]. split; [exact HO|]. split; [apply env_certs_exact|]. split; [exact EV|]. split; [exact AD|vm_compute; reflexivity].
Qed.

(** a mixed cost: the linear part grows: 2 * 1/2 (u - 4)^2 - 4 u; the second control is 12 / (2 + 1e-6), not 4 / (1 + 5e-7) *)
Example C63_example_mixed :
  sizes_fit 1 1 1 /\ follows_protocol 1 1 1 world0 (ex19r ++ map OSolve [env19]) /\ callable world0 ex19r /\ honest world0 ex19r /\
  exact_solver env19 /\ (forall i, even_bounds ex19r i) /\ stale world0 false (ex19r ++ map OSolve [env19]) = false /\ added_since_solve ex19r 0 /\
  match run world0 ex19r with
  | Some w => match m_ps (ctl w), m_is (ctl w), run w (map OSolve [env19]) with
              | Some p, None, Some u =>
                  Nat.eqb (cnt 0 (spCost (ctl w))) 1 && forallb (fun i => 0 <? hcost w i) (spCost (ctl w)) &&
                  per_step (wps w p) (DMixedC (mlit [[1]]%Z) (mlit [[1]]%Z) (vlit [4]%Z)) &&
                  match solve env19 u with
                  | Some (true, w') =>
                      let ps := wps w' p in
                      qeqb (vget (m_ctrl (ctl w')) 0) (qz 12 / (qz 2 + q1em6))%Qc &&
                      qeqb (kth_cost 2 ps ex19r (spCost (ctl w)) (fun _ => qz 6)) (qz (-20)) &&
                      qeqb (kth_cost 2 ps ex19r (spCost (ctl w)) (fun _ => qz 4)) (qz (-16))
                  | _ => false end
              | _, _, _ => false end
  | None => false end = true.
Proof.
  split; [repeat split; lia|]. split.
  { apply followsb_ok; [|vm_compute; reflexivity]. intros e H. cbn in H. repeat (destruct H as [H|H]; [try discriminate H|]); try contradiction; injection H as <-; apply env_certs_sane. }
  split; [apply callableb_ok; vm_compute; reflexivity|]. split; [apply honestb_ok; vm_compute; reflexivity|]. split; [apply env_certs_exact|].
  split; [intros i lo up H; cbn in H; destruct i; discriminate H|].
  split; [vm_compute; reflexivity|]. split; [|vm_compute; reflexivity].
  exists (firstn 3 ex19r), j0, []. split; [reflexivity|]. intros e [].
Qed.

(** the controller of C49 solved with a zero weight, then with a weight of one: two updates, the first of which adds nothing *)
Definition ex63 : list op := ex49 ++ [OWeight 0 (qz 0); OSolve env49; OWeight 0 (qz 1)].
Example C63_example_initial_state :
  sizes_fit 1 1 2 /\ follows_protocol 1 1 2 world0 ex63 /\ callable world0 ex63 /\ honest world0 ex63 /\ nonneg_weights ex63 /\
  exact_solver env49 /\ (forall i, even_bounds ex63 i) /\
  match run world0 ex63 with
  | Some w => match m_ps (ctl w), m_is (ctl w), solve env49 w with
              | Some p, Some _, Some (true, w') =>
                  negb (match spB (ctl w) with [] => true | _ => false end) &&
                  match updates_of (ex63 ++ [OSolve env49]) 0 with
                  | [(v, _); (v', _)] => qeqb (vget v 0) (qz 0) && qeqb (vget v' 0) (qz 1)
                  | _ => false end &&
                  match initialState w' with Some x => qeqb (vget x 0) (qz (-1)) | None => false end &&
                  forallb (fun xy => qeqb (fst xy) (snd xy)) (combine (vdump (m_ctrl (ctl w'))) (map qz [2; 0]%Z))
              | _, _, _ => false end
  | None => false end = true.
Proof.
  split; [repeat split; lia|]. split.
  { apply followsb_ok; [|vm_compute; reflexivity]. intros e H. cbn in H. repeat (destruct H as [H|H]; [try discriminate H|]); try contradiction; injection H as <-. apply env_inv_sane. }
  split; [apply callableb_ok; vm_compute; reflexivity|]. split; [apply honestb_ok; vm_compute; reflexivity|]. split.
  { split.
    - intros i x H. cbn in H. repeat (destruct H as [H|H]; [try discriminate H|]); try contradiction; injection H as _ <-; apply qleb_ok; reflexivity.
    - intros i v H. cbn in H. repeat (destruct H as [H|H]; [try discriminate H|]); contradiction. }
  split; [apply env_inv_exact|].
  split; [intros [|[|i]] lo up H; cbn in H; try discriminate H; destruct i; discriminate H|].
  vm_compute; reflexivity.
Qed.
