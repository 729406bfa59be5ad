(** Properties_Choice.v -- C69: what the initial state chosen by InitialStateLMPC minimizes. *)
From Verif Require Import Base Eigen Spec Preview SpecApi PreviewProofs AutoSpan AutoSpanProofs Constraints ConstraintProofs
  SpecConstraints ConstraintMeaning Checkers Costs SpecCosts CostProofs CostMeaning Properties_Costs Controller Registry SpecController Assembly
  Results Properties_Assembly Properties_Results SpecProtocol Protocol Properties_Protocol SpecEndToEnd SpanData Properties_Registry
  EndToEnd EndToEndQP EndToEndRows EndToEndMain Convex ExactSolver Properties_EndToEnd Determined Properties_Problem StateExt
  InitialState Properties_InitialState Solvers SpecSolvers SolverProofs Existence Properties_Solvers SpecMeaning Meaning Properties_Meaning
  SpecBridge Properties_Bridge Choice.

(** the pair (initialState(), control()) minimizes the cost of the initial state, plus what the controls cost above the cheapest
    controls from that state, plus the tilt -- not the registered costs themselves *)
Theorem C69_what_is_minimized : forall n m N h w p s e w',
  posed_free n m N h w p s e true w' -> exact_solver e -> nonneg_weights h ->
  right_inverse e (m * N) (fun i j => at_ (qQ (m_qp (ctl w'))) (n + i) (n + j)) ->
  let ps := wps w' p in
  let cost := cost_from h w ps in
  (exists best, best_response cost best) /\
  forall best, best_response cost best ->
  let F := fun y V => (start_cost n s y + (cost y V - cost y (best y)) + tilt cost best y)%Qc in
  exists x, initialState w' = Some x /\ vsize x = n /\ pair_admissible n h w s ps (vget x) (vget (m_ctrl (ctl w'))) /\
    forall y V, pair_admissible n h w s ps y V -> (F (vget x) (vget (m_ctrl (ctl w'))) <= F y V)%Qc.
Proof.
  intros n m N h w p s e w' PF EX NW RI. cbv zeta.
  destruct (chosen_value n m N h w p s e true w' PF NW RI) as [be [d [BR [UN QV]]]].
  split; [exists be; exact BR|]. intros best B2.
  destruct (pf_dims _ _ _ _ _ _ _ _ _ _ PF) as [Dn Dk].
  assert (SB : forall y i, i < m * N -> best y i = be y i) by (intros y i Hi; apply UN; [apply B2|exact Hi]).
  assert (CB : forall y, cost_from h w (wps w' p) y (best y) = cost_from h w (wps w' p) y (be y)).
  { intro y. apply (cost_ext n m N h w p s e true w' PF); [reflexivity|apply SB]. }
  assert (TB : forall y, tilt (cost_from h w (wps w' p)) best y = tilt (cost_from h w (wps w' p)) be y).
  { intro y. unfold tilt. cbv zeta. apply (f_equal (Qcmult half)); apply (f_equal2 Qcminus); apply (cost_ext n m N h w p s e true w' PF); try reflexivity; intros i Hi; rewrite !SB by exact Hi; reflexivity. }
  pose proof (pf_solved _ _ _ _ _ _ _ _ _ _ PF) as S. assert (H := PF). destruct H as [SF FP CA HO RE Ep Is EV FS BD So].
  destruct (C49_optimal_from_initial_state n m N h w p s e w' SF FP CA HO RE Ep Is EV FS BD EX So) as [x [Ex [Xz [_ [_ [_ [SD [BX [_ [[AX RX] _]]]]]]]]]]. cbv zeta in *.
  rewrite Dn in BX, Xz. exists x. split; [exact Ex|]. split; [exact Xz|]. split; [split; [exact BX|split; [exact AX|exact RX]]|]. intros y V [BY [AY RY]].
  destruct (solve_qp _ _ _ _ So) as [u [Eb [Q1 [Q2 [Q3 [_ [_ [_ [_ [_ Q5]]]]]]]]]]. rewrite <- Q1, <- Q2, <- Q3 in Q5.
  destruct (EX _ _ _ _ _ Q5 (si_called n m N SF h w p s e true w' S Is)) as [Sz [Fe Op]].
  destruct (si_dims n m N SF h w p s e true w' S Is) as [_ [_ [_ [_ [_ [Z3 _]]]]]].
  destruct (pi_m _ _ (sd_pinv _ _ _ _ _ _ _ _ _ S) p Ep) as [Np _].
  assert (Dnw : xDim (wps w p) = n) by (rewrite <- Dn; symmetry; apply SD). assert (Dkw : fullUDim (wps w p) = m * N) by (rewrite <- Dk; symmetry; apply SD).
  assert (Vs : vsize (m_sol (ctl w')) = xDim (wps w p) + fullUDim (wps w p)) by (rewrite Sz, Z3; lia).
  destruct (C35_success_publishes_initial_state h w p s e w' RE HO Ep Is Np So Vs) as [_ [Ct [[x' [Ex' [_ [Xs _]]]] _]]]. cbv zeta in Ct, Xs. rewrite Ex in Ex'. injection Ex' as <-.
  rewrite Dk, Dn in Ct. rewrite Dn in Xs. destruct (pf_ready _ _ _ _ _ _ _ _ _ _ PF) as [R _].
  assert (FC : feasible (m_qp (ctl w')) (cat n y V)).
  { apply (pf_feasible _ _ _ _ _ _ _ _ _ _ PF). split; [intros i Hi; rewrite cat_l by exact Hi; apply BY; exact Hi|]. split.
    - intros i c Hi Hd. specialize (AY i c Hi Hd). revert AY. apply imposes_ext; [exact R| |]; intros j Hj; [rewrite Dn in Hj; apply cat_l; exact Hj|apply cat_r].
    - intro E. specialize (RY E). rewrite Dk in RY. eapply representable_ext; [intros; symmetry; apply cat_r|exact RY]. }
  specialize (Op _ FC).
  assert (EQ : qp_value (m_qp (ctl w')) (vget (m_sol (ctl w'))) = qp_value (m_qp (ctl w')) (cat n (vget x) (vget (m_ctrl (ctl w'))))).
  { unfold qp_value. apply Properties_InitialState.objective_ext. intros i Hi. rewrite Z3 in Hi. unfold cat. destruct (Nat.ltb_spec i n) as [L|L]; [symmetry; apply Xs; exact L|].
    rewrite Ct by lia. unfold ctrl_part. f_equal. lia. }
  rewrite EQ, !QV in Op. rewrite !CB, !TB. qc_lra.
Qed.
Print Assumptions C69_what_is_minimized.

(** ** Costs that are even *)
Section Even.
Variables (ps : psys) (U : nat -> Qc).
Hypothesis R : ready ps.
Hypothesis D0 : forall i, i < xDim ps -> vget (psd ps) i = 0%Qc.
Notation zero := (fun _ : nat => 0%Qc).
Notation opp := (fun j => - U j)%Qc.
Lemma state_opp k i : i < xDim ps -> state_of ps zero opp k i = (- state_of ps zero U k i)%Qc.
Proof using D0.
  revert i. induction k as [|k IH]; intros i Hi; unfold state_of in *; cbn [state_at]; [ring|].
  rewrite (sum_ext (xDim ps) _ (fun j => - (at_ (psA ps) i j * state_at (xDim ps) (uDim ps) (at_ (psA ps)) (at_ (psB ps)) (vget (psd ps)) zero U k j))%Qc)
    by (intros j Hj; rewrite IH by exact Hj; ring).
  rewrite (sum_ext (uDim ps) _ (fun j => - (at_ (psB ps) i j * U (k * uDim ps + j)%nat))%Qc) by (intros; ring).
  rewrite !sum_opp, D0 by exact Hi. ring.
Qed.
Lemma stacked_opp i : i < fullXDim ps -> stacked_state ps zero opp i = (- stacked_state ps zero U i)%Qc.
Proof using D0 R. intro Hi. unfold stacked_state. apply state_opp. apply Nat.mod_upper_bound. rewrite (rd_fx _ R) in Hi. destruct (xDim ps); lia. Qed.
Lemma apply_odd n M (a b : nat -> Qc) i : (forall j, j < n -> a j = (- b j)%Qc) -> apply n M a i = (- apply n M b i)%Qc.
Proof using. intro H. unfold apply. rewrite <- sum_opp. apply sum_ext. intros j Hj. rewrite H by exact Hj. ring. Qed.
Lemma wsq_odd r w (a b : nat -> Qc) : (forall i, i < r -> a i = (- b i)%Qc) -> wsq r w a = wsq r w b.
Proof using. intro H. unfold wsq. f_equal. apply sum_ext. intros i Hi. rewrite H by exact Hi. ring. Qed.
Lemma cost_even d w : zero_target d -> cost_value ps d w zero opp = cost_value ps d w zero U.
Proof using R D0.
  intro Z. assert (NX := rd_nx _ R). destruct d as [M p|M p|M p|M L p]; cbn [cost_value zero_target] in *.
  - unfold traj_cost. destruct (Nat.eqb (cols M) (xDim ps)).
    + apply sum_ext. intros k Hk. apply wsq_odd. intros i Hi. rewrite Z by exact Hi. rewrite (apply_odd _ _ _ (state_of ps zero U k)) by (intros; apply state_opp; assumption). ring.
    + apply wsq_odd. intros i Hi. rewrite Z by exact Hi. rewrite (apply_odd _ _ _ (stacked_state ps zero U)) by (intros; apply stacked_opp; assumption). ring.
  - unfold target_cost. apply wsq_odd. intros i Hi. rewrite Z by exact Hi. rewrite (apply_odd _ _ _ (state_of ps zero U (nrUStep ps))) by (intros; apply state_opp; assumption). ring.
  - unfold ctrl_cost. destruct (Nat.eqb (cols M) (uDim ps)).
    + apply sum_ext. intros k Hk. apply wsq_odd. intros i Hi. rewrite Z by exact Hi. rewrite (apply_odd _ _ _ (control_at (uDim ps) U k)) by reflexivity. ring.
    + apply wsq_odd. intros i Hi. rewrite Z by exact Hi. rewrite (apply_odd _ _ _ U) by reflexivity. ring.
  - unfold mixed_cost. destruct (Nat.eqb (cols M) (xDim ps) && Nat.eqb (cols L) (uDim ps)).
    + apply sum_ext. intros k Hk. apply wsq_odd. intros i Hi. rewrite Z by exact Hi. rewrite (apply_odd _ _ _ (state_of ps zero U k)) by (intros; apply state_opp; assumption).
      rewrite (apply_odd _ _ (control_at (uDim ps) opp k) (control_at (uDim ps) U k)) by reflexivity. ring.
    + apply wsq_odd. intros i Hi. rewrite Z by exact Hi. rewrite (apply_odd _ _ _ (stacked_state ps zero U)) by (intros; apply stacked_opp; assumption).
      rewrite (apply_odd _ _ opp U) by reflexivity. ring.
Qed.
End Even.
(** zero bias and zero targets: the tilt is 0 whatever the cheapest controls *)
Theorem C69_even : forall n m N h w p s e b w',
  posed_free n m N h w p s e b w' ->
  let ps := wps w' p in
  let cost := cost_from h w ps in
  (forall i, i < n -> vget (psd ps) i = 0%Qc) ->
  (forall i d, In i (spCost (ctl w)) -> cost_data_of h i = Some d -> zero_target d) ->
  (forall V, cost (fun _ => 0%Qc) (fun j => - V j)%Qc = cost (fun _ => 0%Qc) V) /\
  (forall best y, tilt cost best y = 0%Qc).
Proof.
  intros n m N h w p s e b w' PF. cbv zeta. intros D0 ZT. destruct (pf_ready _ _ _ _ _ _ _ _ _ _ PF) as [R _]. destruct (pf_dims _ _ _ _ _ _ _ _ _ _ PF) as [Dn _].
  assert (EV : forall V, cost_from h w (wps w' p) (fun _ => 0%Qc) (fun j => - V j)%Qc = cost_from h w (wps w' p) (fun _ => 0%Qc) V).
  { intro V. unfold cost_from. f_equal.
    - unfold total_cost_from. apply lsum_ext. intros i Hi. destruct (cost_data_of h i) as [d|] eqn:Ed; [|reflexivity].
      apply cost_even; [exact R|rewrite Dn; exact D0|exact (ZT i d Hi Ed)].
    - unfold regularization. do 2 f_equal. apply sum_ext. intros. ring. }
  split; [exact EV|]. intros best y. unfold tilt. cbv zeta. rewrite EV. ring.
Qed.
Print Assumptions C69_even.

(** costs that are even in the controls from the state 0 (zero bias, targets at 0): when the cheapest controls from y may be
    used, y does not beat the published initial state on the cost of the initial state alone *)
Theorem C69_initial_cost_only : forall n m N h w p s e w' best,
  posed_free n m N h w p s e true w' -> exact_solver e -> nonneg_weights h ->
  right_inverse e (m * N) (fun i j => at_ (qQ (m_qp (ctl w'))) (n + i) (n + j)) ->
  let ps := wps w' p in
  let cost := cost_from h w ps in
  best_response cost best ->
  (forall V, cost (fun _ => 0%Qc) (fun j => - V j)%Qc = cost (fun _ => 0%Qc) V) ->
  exists x, initialState w' = Some x /\
    forall y, pair_admissible n h w s ps y (best y) -> (start_cost n s (vget x) <= start_cost n s y)%Qc.
Proof.
  intros n m N h w p s e w' best PF EX NW RI. cbv zeta. intros BR EVEN.
  destruct (C69_what_is_minimized n m N h w p s e w' PF EX NW RI) as [_ H]. cbv zeta in H. destruct (H best BR) as [x [Ex [_ [_ Op]]]].
  exists x. split; [exact Ex|]. intros y AY. specialize (Op y (best y) AY).
  assert (TZ : forall z, tilt (cost_from h w (wps w' p)) best z = 0%Qc) by (intro z; unfold tilt; cbv zeta; rewrite EVEN; ring).
  rewrite !TZ in Op. specialize (BR (vget x) (vget (m_ctrl (ctl w')))). qc_lra.
Qed.
Print Assumptions C69_initial_cost_only.

(** without resetInitialStateCost (R = 0, r = 0) the choice of the initial state ignores the costs: every state of the bounds
    from which the cheapest controls may be used is as good as the published one, which is one of them *)
Theorem C69_default_ignores_costs : forall n m N h w p s e w' best,
  posed_free n m N h w p s e true w' -> exact_solver e -> nonneg_weights h ->
  right_inverse e (m * N) (fun i j => at_ (qQ (m_qp (ctl w'))) (n + i) (n + j)) ->
  let ps := wps w' p in
  let cost := cost_from h w ps in
  best_response cost best ->
  (forall V, cost (fun _ => 0%Qc) (fun j => - V j)%Qc = cost (fun _ => 0%Qc) V) ->
  (forall y, start_cost n s y = 0%Qc) -> (exists y, pair_admissible n h w s ps y (best y)) ->
  exists x, initialState w' = Some x /\ cost (vget x) (vget (m_ctrl (ctl w'))) = cost (vget x) (best (vget x)) /\
    forall y, pair_admissible n h w s ps y (best y) ->
      qp_value (m_qp (ctl w')) (cat n y (best y)) = qp_value (m_qp (ctl w')) (cat n (vget x) (vget (m_ctrl (ctl w')))).
Proof.
  intros n m N h w p s e w' best PF EX NW RI. cbv zeta. intros BR EVEN SZ [y0 A0].
  destruct (C69_what_is_minimized n m N h w p s e w' PF EX NW RI) as [_ H]. cbv zeta in H. destruct (H best BR) as [x [Ex [_ [_ Op]]]].
  assert (TZ : forall b z, tilt (cost_from h w (wps w' p)) b z = 0%Qc) by (intros b z; unfold tilt; cbv zeta; rewrite EVEN; ring).
  assert (CE : cost_from h w (wps w' p) (vget x) (vget (m_ctrl (ctl w'))) = cost_from h w (wps w' p) (vget x) (best (vget x))).
  { apply Qcle_antisym; [|apply BR]. specialize (Op y0 (best y0) A0). rewrite !TZ, !SZ in Op. qc_lra. }
  exists x. split; [exact Ex|]. split; [exact CE|]. intros y AY.
  destruct (chosen_value n m N h w p s e true w' PF NW RI) as [be [d [B2 [_ QV]]]]. rewrite !QV, !TZ, !SZ.
  assert (E1 : cost_from h w (wps w' p) y (best y) = cost_from h w (wps w' p) y (be y)) by (apply Qcle_antisym; [apply BR|apply B2]).
  assert (E2 : cost_from h w (wps w' p) (vget x) (best (vget x)) = cost_from h w (wps w' p) (vget x) (be (vget x))) by (apply Qcle_antisym; [apply BR|apply B2]).
  rewrite E1, CE, E2. ring.
Qed.
Print Assumptions C69_default_ignores_costs.

(** x1 = x0 + u, costs 1/2 x1^2 and 1/2 u^2, initial cost 1/2 x0^2 - x0, x0 within [-1, 2]: the published initial state is 1, the
    minimum of the initial cost alone (with the registered costs it would be about 2/3) *)
Definition ex69 (z : list op) : list op :=
  [OPs 0 (PSystem (mlit [[1]]%Z) (mlit [[1]]%Z) (vlit [0]%Z) (vlit [0]%Z) 1); OConstruct j0 (CISps 0) qempty;
   OResetX0Bounds (elit [fin (-1)]) (elit [fin 2])] ++ z ++
  [ONewCost (DTargetC (mlit [[1]]%Z) (vlit [0]%Z)); ONewCost (DCtrlC (mlit [[1]]%Z) (vlit [0]%Z)); OAddCost j0 0; OAddCost j0 1].
Definition k69 : Qc := (qz 2 + q1em6)%Qc.
Definition inv69 : mx := Mx 1 1 (fun _ _ => / k69)%Qc.
Definition cert69 : cert := Cert [qz 1; (- / k69)%Qc] [] [] [] [(k69, [(/ k69)%Qc; qz 1]); (qz 1, [qz 1])].
Definition env69 := env_inv [cert69] inv69.
Definition r69 : list op := [OResetX0Cost (mlit [[1]]%Z) (vlit [-1]%Z)].

Example C69_example : exists w s w' x best,
  posed_free 1 1 1 (ex69 r69) w 0 s env69 true w' /\ exact_solver env69 /\ nonneg_weights (ex69 r69) /\
  right_inverse env69 (1 * 1) (fun i j => at_ (qQ (m_qp (ctl w'))) (1 + i) (1 + j)) /\
  best_response (cost_from (ex69 r69) w (wps w' 0)) best /\
  (forall i, i < 1 -> vget (psd (wps w' 0)) i = 0%Qc) /\
  (forall i d, In i (spCost (ctl w)) -> cost_data_of (ex69 r69) i = Some d -> zero_target d) /\ spCost (ctl w) = [0; 1] /\
  (forall y, within_bounds 1 (vget (isx0lb s)) (vget (isx0ub s)) y -> representable (1 * 1) (best y) ->
     pair_admissible 1 (ex69 r69) w s (wps w' 0) y (best y)) /\
  initialState w' = Some x /\ vget x 0 = qz 1.
Proof.
  assert (SF : sizes_fit 1 1 1) by (repeat split; lia).
  assert (NW : nonneg_weights (ex69 r69)) by no_weights.
  assert (FP : follows_protocol 1 1 1 world0 (ex69 r69)).
  { apply followsb_ok; [|vm_compute; reflexivity]. intros e H. cbn in H. repeat (destruct H as [H|H]; [try discriminate H|]); contradiction. }
  assert (CA : callable world0 (ex69 r69)) by (apply callableb_ok; vm_compute; reflexivity).
  assert (HO : honest world0 (ex69 r69)) by (apply honestb_ok; vm_compute; reflexivity).
  assert (C : match run world0 (ex69 r69) with
    | Some w => match m_ps (ctl w), m_is (ctl w), solve env69 w with
        | Some p, Some s, Some (b, w') => p = 0 /\ b = true /\ spC (ctl w) = [] /\ spCost (ctl w) = [0; 1] /\ vget (psd (wps w' 0)) 0 = 0%Qc /\
            (forall i d, In i (spCost (ctl w)) -> cost_data_of (ex69 r69) i = Some d -> per_step (wps w 0) d = false)
        | _, _, _ => False end
    | None => False end).
  { vm_compute. repeat split. intros i d [<-|[<-|[]]] H; injection H as <-; reflexivity. }
  assert (K : match run world0 (ex69 r69) with
    | Some w => match solve env69 w with
        | Some (b, w') => inverseb 1 (fun i j => at_ (qQ (m_qp (ctl w'))) (1 + i) (1 + j)) (at_ inv69) && match initialState w' with Some x => qeqb (vget x 0) (qz 1) | None => false end
        | None => false end
    | None => false end = true) by (vm_compute; reflexivity).
  destruct (run world0 (ex69 r69)) as [w|] eqn:Rn; [|destruct C]. destruct (m_ps (ctl w)) as [p|] eqn:Ep; [|destruct C]. destruct (m_is (ctl w)) as [s|] eqn:Ei; [|destruct C].
  destruct (solve env69 w) as [[b w']|] eqn:So; [|destruct C]. destruct C as [-> [-> [C1 [C2 [C3 C4]]]]].
  apply andb_prop in K as [K1 K2]. destruct (initialState w') as [x|] eqn:Ix; [|discriminate K2]. apply qeqb_ok in K2.
  assert (PF : posed_free 1 1 1 (ex69 r69) w 0 s env69 true w').
  { split; try assumption.
    - rewrite C1. intros i [].
    - intros i d Hi Ed PS. rewrite (C4 i d Hi Ed) in PS. discriminate PS.
    - right. vm_compute. reflexivity. }
  assert (EX : exact_solver env69) by apply env_inv_exact.
  assert (RI : right_inverse env69 (1 * 1) (fun i j => at_ (qQ (m_qp (ctl w'))) (1 + i) (1 + j))) by (apply right_inverse_env; [reflexivity..|apply inverseb_ok; exact K1]).
  destruct (C69_what_is_minimized 1 1 1 (ex69 r69) w 0 s env69 w' PF EX NW RI) as [[best BR] _].
  exists w, s, w', x, best. split; [exact PF|]. split; [exact EX|]. split; [exact NW|]. split; [exact RI|]. split; [exact BR|].
  split; [intros [|i] Hi; [exact C3|lia]|]. split.
  { rewrite C2. intros i d [<-|[<-|[]]] H; injection H as <-; intros [|r] Hr; cbn in Hr; try lia; reflexivity. }
  split; [exact C2|]. split; [|split; [exact Ix|exact K2]].
  intros y WB RP. split; [exact WB|]. split; [rewrite C1; intros i d []|]. intros _. destruct (pf_dims _ _ _ _ _ _ _ _ _ _ PF) as [_ Dk]. rewrite Dk. exact RP.
Qed.
