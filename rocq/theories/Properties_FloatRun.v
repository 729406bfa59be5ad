(** Properties_FloatRun.v -- C71: what a controller computing in floating point answers, at the end of any history. *)
From Coq Require Import Qcabs.
From Verif Require Import Base Eigen Spec Preview SpecApi PreviewProofs AutoSpan AutoSpanProofs Constraints ConstraintProofs
  SpecConstraints ConstraintMeaning Checkers Costs SpecCosts CostProofs CostMeaning Properties_Costs Controller Registry SpecController Assembly
  Results SpecProtocol Protocol Properties_Protocol SpecEndToEnd SpanData Properties_Registry EndToEnd EndToEndQP EndToEndRows EndToEndMain
  ExactSolver Properties_EndToEnd.
From Verif Require Import Floats SpecFloats FloatProofs FloatPreview FloatConstraints FloatRows Binary64 Properties_Floats
  FloatCosts SpecFloatCosts FloatCostProofs FloatCostRun Properties_FloatCosts
  FloatController SpecFloatRun FloatProtocol FloatTrace FloatMeaning FloatValue FloatSolve.
Open Scope nat_scope.
Open Scope list_scope.

(** Whatever the arithmetic, the documented calls of an application that honestly owns its objects are all defined. *)
Theorem C71_no_undefined_behaviour : forall u F reg n m N h, accurate u F -> sizes_fit n m N ->
  f_follows_protocol F reg n m N world0 h -> f_honest F reg world0 h -> exists w, f_run F reg world0 h = Some w.
Proof. intros u F reg n m N h Ac SF FP HO. exact (f_run_defined u F Ac reg n m N SF h FP HO). Qed.

(** The answer of a successful solve nearly satisfies the user's constraints and is nearly optimal, the errors being bounded by
    the roundings and the tolerance of the solver. *)
Theorem C71_rounded_end_to_end : forall u F reg n m N h w p e tol w',
  accurate u F -> within u q1em6 reg -> sizes_fit n m N ->
  f_follows_protocol F reg n m N world0 h -> f_callable F reg world0 h -> f_honest F reg world0 h ->
  f_run F reg world0 h = Some w -> m_ps (ctl w) = Some p -> m_is (ctl w) = None ->
  (* the registered trajectory bounds were given with the same size *)
  (forall i, In i (spC (ctl w)) -> even_bounds h i) ->
  (* per-step costs were not already solved with; no bounds of a removed constraint are left *)
  fresh_steps (wps w p) h (spCost (ctl w)) -> (spB (ctl w) <> [] \/ f_stale F reg world0 false h = false) ->
  close_solver tol e -> f_solve F reg e w = Some (true, w') ->
  let ps := wps w' p in
  let k := fullUDim ps in
  let U := vget (m_ctrl (ctl w')) in
  let cost := fun V => (total_cost ps h (spCost (ctl w)) V + regularization k V)%Qc in
  let size := fun V => (total_size ps h (spCost (ctl w)) V + regularization k V)%Qc in
  (* the system is the user's *)
  x0 ps = x0 (wps w p) /\ psA ps = psA (wps w p) /\ psB ps = psB (wps w p) /\ psd ps = psd (wps w p) /\ same_dims ps (wps w p) /\
  (* trajectory() is nearly its trajectory under control() *)
  vsize (m_ctrl (ctl w')) = k /\ predicts u (nrUStep ps * (xDim ps + uDim ps + 1)) ps (vget (x0 ps)) U (m_traj (ctl w')) /\
  (* which nearly satisfies the constraints *)
  all_met u 1 tol ps h (spC (ctl w)) U /\
  (* and nearly no control that satisfies them with a margin costs less *)
  forall V, all_met u (- (1)) 0 ps h (spC (ctl w)) V -> (spB (ctl w) = [] -> representable k V) ->
    (cost U <= cost V + tol + growth u (total_roundings ps h (spCost (ctl w))) * (size U + size V))%Qc.
Proof.
  intros u F reg n m N h w p e tol w' Ac Wr SF FP CA HO RE Ep NI NS FS St CS So. cbv zeta.
  pose proof (fs_asm u F Ac reg n m N SF h w p e true w' FP CA HO RE Ep NI So) as A.
  destruct (fs_wf u F Ac reg n m N SF h w p e true w' FP CA HO RE Ep NI So) as [W X0].
  pose proof (fs_well_sized u F Ac reg n m N SF h w p e true w' FP CA HO RE Ep NI So) as WS.
  destruct (fs_sum_sizes u F Ac reg n m N SF h w p e true w' FP CA HO RE Ep NI So) as [_ [_ VC]].
  destruct (fa_call _ _ _ _ _ _ _ _ _ _ A) as [r [Es Hr]]. destruct (Hr eq_refl) as [Pv Ec].
  destruct (CS _ _ _ _ _ Es WS) as [VS [CF CO]]. rewrite Ec. rewrite VC in VS.
  assert (FS' : fresh_steps (wps w' p) h (spCost (ctl w))).
  { intros i d Hi Ed Pd. apply (FS i d Hi Ed). revert Pd. pose proof (fa_same _ _ _ _ _ _ _ _ _ _ A) as SD. unfold per_step.
    assert (Y1 : xDim (wps w' p) = xDim (wps w p)) by apply SD. assert (Y2 : uDim (wps w' p) = uDim (wps w p)) by apply SD. rewrite Y1, Y2. auto. }
  split; [apply (fa_x0 _ _ _ _ _ _ _ _ _ _ A)|]. split; [apply (fa_A _ _ _ _ _ _ _ _ _ _ A)|]. split; [apply (fa_B _ _ _ _ _ _ _ _ _ _ A)|].
  split; [apply (fa_d _ _ _ _ _ _ _ _ _ _ A)|]. split; [apply (fa_same _ _ _ _ _ _ _ _ _ _ A)|]. split; [exact VS|]. split.
  { pose proof (computed_near u F _ Ac (fa_comp _ _ _ _ _ _ _ _ _ _ A)) as FN.
    pose proof (wf_fu _ W) as EU. pose proof (wf_fx _ W) as EX. pose proof (wf_nx _ W) as EN. pose proof (wf_nu _ W) as HN.
    destruct (f_preview_near u F _ _ (x0 (wps w' p)) r Ac W FN X0 VS) as [Z [Ez [Sz G]]]. rewrite Pv in Ez. injection Ez as <-.
    split; [rewrite Sz, EX, EN; reflexivity|].
    intros t i Ht Hi. specialize (G (t * xDim (wps w' p) + i)).
    assert (B : t * xDim (wps w' p) + i < fullXDim (wps w' p)) by (rewrite EX, EN; nia).
    destruct (G B) as [_ G2]. unfold stacked_state, stacked_size in G2. rewrite blk_quot, blk_rem in G2 by exact Hi.
    replace (nrUStep (wps w' p) * (xDim (wps w' p) + uDim (wps w' p) + 1))
      with ((nrUStep (wps w' p) - 1) * (xDim (wps w' p) + 1) + (1 + xDim (wps w' p) + fullUDim (wps w' p))); [exact G2|].
    rewrite EU. destruct (nrUStep (wps w' p)) as [|N']; [lia|]. replace (S N' - 1) with N' by lia. lia. }
  split; [exact (fs_all_met u F Ac reg n m N SF h w p e true w' FP CA HO RE Ep NI So tol (vget r) NS CF)|].
  intros V HV Re. pose proof (fs_feasible u F Ac reg n m N SF h w p e true w' FP CA HO RE Ep NI So V NS St HV Re) as FV.
  specialize (CO V FV).
  destruct (fs_value u F Ac reg n m N SF h w p e true w' FP CA HO RE Ep NI So (vget r) Wr FS') as [_ N1].
  destruct (fs_value u F Ac reg n m N SF h w p e true w' FP CA HO RE Ep NI So V Wr FS') as [_ N2].
  revert CO N1 N2.
  generalize (qp_value (m_qp (ctl w')) (vget r)) (qp_value (m_qp (ctl w')) V) (growth u (total_roundings (wps w' p) h (spCost (ctl w)))).
  generalize (regularization (fullUDim (wps w' p)) (vget r)) (regularization (fullUDim (wps w' p)) V)
    (total_cost (wps w' p) h (spCost (ctl w)) (vget r)) (total_cost (wps w' p) h (spCost (ctl w)) V) (total_cost (wps w' p) h (spCost (ctl w)) (fun _ => 0%Qc))
    (total_size (wps w' p) h (spCost (ctl w)) (vget r)) (total_size (wps w' p) h (spCost (ctl w)) V).
  intros r1 r2 c1 c2 c0 s1 s2 q1 q2 g L N1 N2.
  apply Qcabs_Qcle_condition in N1. apply Qcabs_Qcle_condition in N2. destruct N1 as [N1 _]. destruct N2 as [_ N2].
  replace (g * (s1 + r1 + (s2 + r2)))%Qc with (g * (r1 + s1) + g * (r2 + s2))%Qc by ring.
  revert N1 N2. generalize (g * (r1 + s1))%Qc (g * (r2 + s2))%Qc. intros a b. revert L. qc_lra.
Qed.

(** An exact solver is one. *)
Theorem C71_exact_solver : forall e tol, (0 <= tol)%Qc -> exact_solver e -> close_solver tol e.
Proof.
  intros e tol T X k a b q r E WS. destruct (X k a b q r E WS) as [V [Fe O]]. split; [exact V|].
  assert (M : forall ineq l x, meets 0 ineq l x -> meets tol ineq l x).
  { intros ineq l x. destruct x as [|y|]; cbn; auto. destruct ineq.
    - intro H. eapply Qcle_trans; [exact H|]. apply Qcplus_le_compat; [apply Qcle_refl|exact T].
    - intro H. eapply Qcle_trans; [exact H|exact T]. }
  split.
  - apply feasible_close in Fe as [F1 [F2 F3]]. split; [|split]; intros i Hi; [apply M, F1, Hi|apply M, F2, Hi|].
    destruct (F3 i Hi) as [G1 G2]. split; apply M; assumption.
  - intros V0 HV. eapply Qcle_trans; [exact (O V0 HV)|].
    rewrite <- (Qcplus_0_r (qp_value q V0)) at 1. apply Qcplus_le_compat; [apply Qcle_refl|exact T].
Qed.

(** Without rounding errors and margin, the rows say what the constraints impose (C36). *)
Lemma each_row_imposes ps d x U : ready ps -> valid_shape ps (new_con d) ->
  (each_row ps d x U (fun _ ineq l e _ => cmp ineq l e) <-> imposes ps d x U).
Proof.
  intros W V. destruct d as [E f q|G f q|E G f q|lo up|lo up]; cbn [each_row imposes means]; cbv zeta.
  - unfold traj_means. destruct (Nat.eqb (cols E) (xDim ps)); tauto.
  - unfold ctrl_means. destruct (Nat.eqb (cols G) (uDim ps)); tauto.
  - unfold mixed_means. destruct (Nat.eqb (cols E) (xDim ps) && Nat.eqb (cols G) (uDim ps)); tauto.
  - unfold traj_below_both, below_both, valid_shape in *. cbn in V. destruct V as [V1 V2]. unfold vpart. rewrite <- V1.
    pose proof (rd_fx ps W) as EX.
    assert (UP : forall (e : ext) (l : Qc), (e <> PInf -> cmp true l e) <-> q_le_ext l e).
    { intros e l. cbn. destruct e; cbn; split; intro H; try exact I; try (apply H; discriminate); intros; try exact H; congruence. }
    destruct (Nat.eqb_spec (vsize lo) (xDim ps)) as [Q|Q].
    + split; intros H k.
      * intros Hk i Hi. destruct (H k i Hk Hi) as [H1 H2]. apply (proj1 (UP _ _)) in H2. cbn in H1. split; [exact H1|exact H2].
      * intros i Hk Hi. destruct (H k Hk i Hi) as [H1 H2]. split; [exact H1|]. apply (proj2 (UP _ _)). exact H2.
    + split.
      * intros H r Hr. rewrite EX, Nat.mul_comm in Hr. destruct (blk_div' _ _ _ Hr) as [k [i [Hk [Hi ->]]]].
        destruct (H k i Hk Hi) as [H1 H2]. apply (proj1 (UP _ _)) in H2. unfold stacked_state. rewrite blk_quot, blk_rem by exact Hi. split; [exact H1|exact H2].
      * intros H k i Hk Hi. specialize (H (k * xDim ps + i) ltac:(rewrite EX; nia)). unfold stacked_state in H.
        rewrite blk_quot, blk_rem in H by exact Hi. destruct H as [H1 H2]. split; [exact H1|]. apply (proj2 (UP _ _)). exact H2.
  - unfold ctrl_between, within_bounds. 
    assert (B : forall (lo up : ext) (l : Qc), (cmp true (- l) (ext_opp lo) /\ cmp true l up) <-> (ext_le_q lo l /\ q_le_ext l up)).
    { intros a b l. cbn. destruct a as [|a|]; cbn; try tauto. split; intros [H1 H2]; (split; [revert H1; qc_lra|exact H2]). }
    destruct (Nat.eqb (vsize lo) (uDim ps)); split; intros H k.
    + intros Hk i Hi. apply B, H; assumption.
    + intros i Hk Hi. apply B, H; assumption.
    + intro Hk. apply B, H; assumption.
    + intro Hk. apply B, H; assumption.
Qed.
Theorem C71_no_rounding : forall s ps h l U, ready ps ->
  (forall i d, In i l -> con_data_of h i = Some d -> valid_shape ps (new_con d)) ->
  (all_met 0 s 0 ps h l U <-> all_imposed ps h l U).
Proof.
  intros s ps h l U R V.
  assert (M : forall d, valid_shape ps (new_con d) -> (each_row ps d (vget (x0 ps)) U (met 0 s 0) <-> imposes ps d (vget (x0 ps)) U)).
  { intros d Vd. rewrite <- (each_row_imposes _ d _ U R Vd).
    assert (T : forall k q a e z, met 0 s 0 k q a e z <-> cmp q a e).
    { intros k q a e z. unfold met. rewrite growth_0. rewrite <- meets_0. match goal with |- meets ?a _ _ _ <-> _ => replace a with 0%Qc by ring end. reflexivity. }
    split; apply each_row_mono; intros k q a e z H; [exact (proj1 (T k q a e z) H)|exact (proj2 (T k q a e z) H)]. }
  split; intros H i d Hi Ed; apply (M d (V i d Hi Ed)); apply (H i d Hi Ed).
Qed.

(** Rounding touches neither the times nor the verdict: as in C40, solveTime() times the solver alone, solveAndBuildTime() the whole call,
    and solve() answers what the solver answers to the problem it was given. *)
Theorem C71_times_and_verdict : forall F reg e w b w', f_solve F reg e w = Some (b, w') ->
  solveTime (ctl w') = Some (s_t2 e - s_t1 e)%Qc /\ sabTime (ctl w') = Some (s_t3 e - s_t0 e)%Qc /\ exists q k me mi, q = m_qp (ctl w') /\ s_qp e k me mi q = (b, m_sol (ctl w')).
Proof.
  intros F reg e w b w' So. unfold f_solve in So. destruct (f_build F reg e w) as [w1|]; [|discriminate So].
  cbn [obind] in So. cbv beta zeta in So. destruct (s_qp e (vsize (qc (m_qp (ctl w1)))) (nrEq (ctl w1)) (nrIneq (ctl w1)) (m_qp (ctl w1))) as [ok r] eqn:Eq.
  cbv beta iota zeta in So.
  set (w3 := checkDelete _) in So.
  assert (H3 : m_qp (ctl w3) = m_qp (ctl w1) /\ m_sol (ctl w3) = r /\ solveTime (ctl w3) = Some (s_t2 e - s_t1 e)%Qc) by (repeat split; reflexivity).
  assert (U : forall w4, f_updateResults F w3 = Some w4 -> m_qp (ctl w4) = m_qp (ctl w3) /\ m_sol (ctl w4) = m_sol (ctl w3) /\ solveTime (ctl w4) = solveTime (ctl w3)).
  { intros w4 H. unfold f_updateResults in H. destruct (m_ps (ctl w3)) as [p|]; [|discriminate H]. destruct (m_is (ctl w3)).
    - destruct (tail (m_sol (ctl w3)) (fullUDim (wps w3 p))); [|discriminate H]. destruct (initialState w3); [|discriminate H]. cbn [obind] in H.
      destruct (f_preview F (wps w3 p) _ _); [|discriminate H]. injection H as <-. auto.
    - destruct (f_preview F (wps w3 p) _ _); [|discriminate H]. injection H as <-. auto. }
  destruct H3 as [A1 [A2 A3]].
  assert (G : forall w4, (m_qp (ctl w4) = m_qp (ctl w3) /\ m_sol (ctl w4) = m_sol (ctl w3) /\ solveTime (ctl w4) = solveTime (ctl w3)) ->
    Some (ok, set_ctl w4 (Controller.set_times (ctl w4) (solveTime (ctl w4)) (Some (s_t3 e - s_t0 e)%Qc))) = Some (b, w') -> 
    solveTime (ctl w') = Some (s_t2 e - s_t1 e)%Qc /\ sabTime (ctl w') = Some (s_t3 e - s_t0 e)%Qc /\ exists q k me mi, q = m_qp (ctl w') /\ s_qp e k me mi q = (b, m_sol (ctl w'))).
  { intros w4 [B1 [B2 B3]] E. assert (E1 : ok = b) by congruence. assert (E2 : set_ctl w4 (Controller.set_times (ctl w4) (solveTime (ctl w4)) (Some (s_t3 e - s_t0 e)%Qc)) = w') by congruence.
    rewrite <- E2. cbn [ctl set_ctl solveTime sabTime Controller.set_times m_qp m_sol]. split; [rewrite B3; exact A3|]. split; [reflexivity|].
    exists (m_qp (ctl w1)), (vsize (qc (m_qp (ctl w1)))), (nrEq (ctl w1)), (nrIneq (ctl w1)). rewrite B1, A1, B2, A2, <- E1. split; [reflexivity|exact Eq]. }
  destruct ok; cbv beta iota in So.
  - destruct (f_updateResults F w3) as [w4|] eqn:E4; [|discriminate So]. exact (G w4 (U w4 eq_refl) So).
  - exact (G w3 (conj eq_refl (conj eq_refl eq_refl)) So).
Qed.

(** ** Boolean versions, for the example *)
Fixpoint each_callb (F : arith) (reg : Qc) (P : world -> op -> bool) (w : world) (h : list op) : bool :=
  match h with
  | [] => true
  | o :: t => P w o && match f_step F reg w o with Ok w' | Throw _ w' => each_callb F reg P w' t | UB => true end
  end.
Lemma each_callb_ok F reg (P : world -> op -> Prop) Pb : forall h w, (forall w o, In o h -> Pb w o = true -> P w o) ->
  each_callb F reg Pb w h = true -> each_call F reg P w h.
Proof.
  induction h as [|o t IH]; intros w H E; [exact I|]. cbn [each_callb each_call] in *. apply andb_true_iff in E as [E1 E2]. split.
  - apply H; [left; reflexivity|exact E1].
  - assert (G : forall w o, In o t -> Pb w o = true -> P w o) by (intros; apply H; [right|]; assumption).
    destruct (f_step F reg w o) as [v|e v|]; [apply IH; assumption|apply IH; assumption|exact I].
Qed.
Lemma f_callableb_ok F reg h w : each_callb F reg callable_opb w h = true -> f_callable F reg w h.
Proof. apply each_callb_ok. intros v o _ H. destruct o; try exact I; apply Nat.ltb_lt; exact H. Qed.
Lemma f_honestb_ok F reg h w : each_callb F reg honest_opb w h = true -> f_honest F reg w h.
Proof.
  apply each_callb_ok. intros v o _ H. assert (G : honestb v [o] = true).
  { cbn [honestb]. rewrite H. destruct (step v o); reflexivity. }
  apply honestb_ok in G. destruct G as [G _]. exact G.
Qed.
Lemma f_followsb_ok F reg n m N h w : (forall e, In (OSolve e) h -> sane e) ->
  each_callb F reg (legalb n m N) w h = true -> f_follows_protocol F reg n m N w h.
Proof.
  intro S. apply each_callb_ok. intros v o Hin H1.
  assert (G : followsb n m N v [o] = true) by (cbn [followsb]; rewrite H1; destruct (step v o); reflexivity).
  apply followsb_ok in G; [destruct G as [G _]; exact G|]. intros e [->|[]]. apply S. exact Hin.
Qed.
Definition metb (u s tol : Qc) (k : nat) (ineq : bool) (l : Qc) (e : ext) (size : Qc) : bool :=
  let t := (tol + s * (growth u k * (size + ext_abs e)))%Qc in
  match e with
  | Fin q => if ineq then qleb l (q + t)%Qc else qleb (Qcabs (l - q)) t
  | PInf => ineq
  | NInf => false
  end.
Lemma metb_ok u s tol k ineq l e size : metb u s tol k ineq l e size = true -> met u s tol k ineq l e size.
Proof. unfold metb, met, meets. destruct e as [|q|]; [discriminate| |auto]. destruct ineq; apply qleb_ok. Qed.
(** the constraints of the example: a trajectory constraint given for one step, a control bound for all steps *)
Definition each_rowb (ps : psys) (d : con_data) (x U : nat -> Qc) (P : nat -> bool -> Qc -> ext -> Qc -> bool) : bool :=
  match d with
  | DTraj E f ineq => Nat.eqb (cols E) (xDim ps) && allb (nrXStep ps) (fun k => allb (rows E) (fun i =>
      P (nrUStep ps * (xDim ps + 1) + xDim ps + 1) ineq (apply (xDim ps) (at_ E) (state_of ps x U k) i) (vget f i)
        (apply (xDim ps) (mabs (at_ E)) (size_of ps x U k) i)))
  | DCtrlB lower upper => negb (Nat.eqb (vsize lower) (uDim ps)) && allb (fullUDim ps) (fun i =>
      P 0 true (- U i)%Qc (ext_opp (vget lower i)) 0%Qc && P 0 true (U i) (vget upper i) 0%Qc)
  | _ => false
  end.
Lemma each_rowb_ok ps d x U (P : row_pred) Pb : (forall k q l e s, Pb k q l e s = true -> P k q l e s) ->
  each_rowb ps d x U Pb = true -> each_row ps d x U P.
Proof.
  intros HP H. destruct d as [E f q|G f q|E G f q|lo up|lo up]; cbn [each_rowb each_row] in *; try discriminate H; apply andb_true_iff in H as [N0 H].
  - rewrite N0. pose proof (proj1 (allb_spec _ _ (fun k => forall i, i < rows E -> Pb (nrUStep ps * (xDim ps + 1) + xDim ps + 1) q (apply (xDim ps) (at_ E) (state_of ps x U k) i) (vget f i)
        (apply (xDim ps) (mabs (at_ E)) (size_of ps x U k) i) = true) (fun k => allb_spec _ _ _ (fun i => iff_refl _))) H) as G.
    intros k i Hk Hi. apply HP, G; assumption.
  - apply negb_true_iff in N0. rewrite N0. intros i Hi.
    pose proof (proj1 (allb_ok _ _) H i Hi) as G. apply andb_true_iff in G as [G1 G2]. split; apply HP; assumption.
Qed.

(** ** An example: the scalar system of C58 with inexact coefficients, in double precision; a second solve from another initial
    state; the upper bound of the control is active at the first step *)
Definition cert71 (q : qp) : cert :=
  let a := at_ (qQ q) 0 0 in let b := at_ (qQ q) 1 0 in let d := at_ (qQ q) 1 1 in
  let u0 := qz 1 in
  let u1 := (- (vget (qc q) 1 + b * u0) / d)%Qc in
  Cert [u0; u1] [] [0%Qc; 0%Qc; 0%Qc] [(- (a * u0 + b * u1 + vget (qc q) 0))%Qc; 0%Qc] [(a, [qz 1; (b / a)%Qc]); ((d - b * b / a)%Qc, [0%Qc; qz 1])].
(** a solver that answers when it has checked the optimality conditions *)
Definition env71 : senv :=
  SEnv j0 (fun m => m) (fun k _ _ q =>
    if Nat.eqb k (vsize (qc q)) && kkt_check q (cert71 q) then (true, Vec k (nthq (ku (cert71 q)))) else (false, vconst k 0%Qc))
    (qz 0) (qz 1) (qz 3) (qz 4).
Lemma env71_exact : exact_solver env71.
Proof.
  intros k a b q r. unfold env71. cbn [s_qp]. destruct (Nat.eqb_spec k (vsize (qc q))) as [->|]; [|discriminate].
  destruct (kkt_check q (cert71 q)) eqn:E; [|discriminate]. cbn [andb]. intros H _.
  assert (Er : r = Vec (vsize (qc q)) (nthq (ku (cert71 q)))) by congruence. rewrite Er. split; [reflexivity|]. exact (kkt_optimal q (cert71 q) E).
Qed.
Lemma env71_sane : sane env71.
Proof.
  split; [intros M H; cbn; auto|]. intros k a b q r. unfold env71. cbn [s_qp].
  destruct (Nat.eqb k (vsize (qc q)) && kkt_check q (cert71 q)); intro H; [|discriminate].
  assert (Er : r = Vec k (nthq (ku (cert71 q)))) by congruence. rewrite Er. reflexivity.
Qed.
Definition ex71 : list op :=
  [OPs 0 (PSystem fA fB fd (vlit [3]%Z) 2); OConstruct j0 (CLMPCps 0) qempty;
   ONewCon (DTraj fA (elit [fin 7]) true); ONewCon (DCtrlB (elit [fin (-3)]) (elit [fin 1; fin 3])); OSpanCon j0 1;
   ONewCost (DTrajC (mlit [[1; 0; 0]; [0; 1; 0]; [0; 0; 1]]%Z) (vlit [4]%Z)); ONewCost (DTargetC fA (vlit [2]%Z)); ONewCost (DCtrlC fB (vlit [0]%Z));
   OWeight 1 tenth; OWeight 2 (qz 30); OSpanCost j0 0;
   OAddCon j0 0; OAddCon j0 1; OAddCost j0 0; OAddCost j0 1; OAddCost j0 2; OSolve env71; OPs 0 (PXInit (vlit [2]%Z))].
Definition costs71 : list nat := [0; 1; 2].
Definition cons71 : list nat := [0; 1].
Definition same_list (a b : list nat) : bool := if list_eq_dec Nat.eq_dec a b then true else false.
Definition check71 :=
  match f_run arith64 reg64 world0 ex71 with
  | Some w =>
      match m_ps (ctl w), m_is (ctl w), f_solve arith64 reg64 env71 w with
      | Some p, None, Some (true, w') =>
          let ps := wps w' p in let U := vget (m_ctrl (ctl w')) in let x := vget (x0 ps) in
          let exact := regularization 2 U + (total_cost ps ex71 costs71 U - total_cost ps ex71 costs71 (fun _ => 0)) in
          (* rounding errors are made, within the bounds *)
          same_list (spCost (ctl w)) costs71 && same_list (spC (ctl w)) cons71 && same_list (spB (ctl w)) (tl cons71) &&
          qlt 0 (Qcabs (vget (m_traj (ctl w')) 2 - stacked_state ps x U 2)) &&
          qlt 0 (Qcabs (qp_value (m_qp (ctl w')) U - exact)) &&
          qlt (growth u64 (total_roundings ps ex71 costs71) * (total_size ps ex71 costs71 U + regularization 2 U)) (Q2Qc (1 # 1000000000)) &&
          (* the answer satisfies the constraints nearly, no control at all with a margin, and costs less *)
          forallb (fun i => match con_data_of ex71 i with Some d => each_rowb ps d x U (metb u64 1 0) | None => false end) cons71 &&
          forallb (fun i => match con_data_of ex71 i with Some d => each_rowb ps d x (fun _ => 0) (metb u64 (- (1)) 0) | None => false end) cons71 &&
          qlt (total_cost ps ex71 costs71 U) (total_cost ps ex71 costs71 (fun _ => 0)) && qeqb (U 0%nat) 1
      | _, _, _ => false
      end
  | None => false
  end%Qc.
Example C71_example :
  sizes_fit 1 1 2 /\ f_follows_protocol arith64 reg64 1 1 2 world0 ex71 /\ f_callable arith64 reg64 world0 ex71 /\
  f_honest arith64 reg64 world0 ex71 /\ close_solver 0 env71 /\ (forall i, even_bounds ex71 i) /\
  (forall ps l, xDim ps = 1 -> fresh_steps ps ex71 l) /\ check71 = true.
Proof.
  split; [repeat split; lia|]. split.
  { apply f_followsb_ok; [|vm_compute; reflexivity]. intros e H. cbn in H.
    repeat (destruct H as [H|H]; [try discriminate H; try (injection H as <-; exact env71_sane)|]). contradiction. }
  split; [apply f_callableb_ok; vm_compute; reflexivity|]. split; [apply f_honestb_ok; vm_compute; reflexivity|].
  split; [apply C71_exact_solver; [apply Qcle_refl|exact env71_exact]|].
  split; [intros [|[|i]] lo up H; cbn in H; try discriminate H; destruct i; discriminate H|].
  split; [|vm_compute; reflexivity].
  intros ps l X [|[|[|i]]] d _ H Pd; cbn in H; try (injection H as <-; cbn in Pd; rewrite ?X in Pd; cbn in Pd; discriminate Pd); try discriminate H.
  destruct i; discriminate H.
Qed.
Print Assumptions C71_no_undefined_behaviour.
Print Assumptions C71_rounded_end_to_end.
Print Assumptions C71_exact_solver.
Print Assumptions C71_no_rounding.
Print Assumptions C71_times_and_verdict.
Print Assumptions C71_example.
