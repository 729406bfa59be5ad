(** FloatProtocol.v -- a controller that rounds: every history of the documented protocol is defined, and what it keeps. *)
From Coq Require Import Qcabs.
From Verif Require Import Base Eigen Spec Preview SpecApi PreviewProofs AutoSpan AutoSpanProofs Constraints ConstraintProofs
  SpecConstraints ConstraintMeaning Checkers Costs SpecCosts CostProofs CostMeaning Properties_Costs Controller Registry SpecController Assembly
  Results SpecProtocol Protocol Properties_Protocol SpecEndToEnd SpanData Properties_Registry EndToEnd EndToEndQP EndToEndRows EndToEndMain.
From Verif Require Import Floats SpecFloats FloatProofs FloatPreview FloatConstraints FloatRows Properties_Floats
  FloatCosts SpecFloatCosts FloatCostProofs FloatCostRun FloatController SpecFloatRun.
Open Scope nat_scope.
Open Scope list_scope.

Ltac shp := cbn [rows cols vsize]; congruence || lia.
Ltac steps :=
  repeat first
    [ rewrite f_mmul_ok by shp
    | rewrite f_resid_ok by shp
    | rewrite f_hwt_ok by (try exact I; try split; shp)
    | rewrite f_gwt_ok by (try exact I; shp)
    | progress cbn [obind rows cols at_ vsize vget vopp old_m old_v app] ].
(** ** Per-step costs add to whatever they hold *)
Lemma acc_update_ok F ps c : ps_wf ps -> vsize (x0 ps) = xDim ps -> k_shape ps c -> k_acc c = true ->
  exists c', f_k_update F ps c = Some c' /\ k_same c c' /\ k_shape ps c'.
Proof.
  intros W X [[S1 [S2 [S3 [S4 [S5 S6]]]]] [Hw [Hd Hz]]] A.
  pose proof (wf_Phr ps W) as P1. pose proof (wf_Phc ps W) as P2. pose proof (wf_Psr ps W) as P3. pose proof (wf_Psc ps W) as P4.
  pose proof (wf_xi ps W) as P5. pose proof (wf_fx ps W) as Fx. pose proof (wf_nx ps W) as Nx. pose proof (wf_fu ps W) as Fu.
  unfold k_acc in A. unfold f_k_update. unfold k_dims in Hd.
  set (I0 := fun (_ : nat) (s : mx * mx * vec Qc) => let '(Q, E, f) := s in
    rows Q = fullUDim ps /\ cols Q = fullUDim ps /\ rows E = xDim ps /\ cols E = fullUDim ps /\ vsize f = fullUDim ps).
  destruct (kk c) eqn:HK; try discriminate A; destruct (kfull c) eqn:HF; try discriminate A.
  - destruct Hd as [Hr Hc]. unfold f_trajC_update. rewrite HF.
    destruct (for_inv I0 0 (nrXStep ps) (f_trajC_step F ps (kM c) (kp c) (kw c)) (kQ c, kE c, kf c)) as [[[Q E] f] [Eq [T1 [T2 [T3 [T4 T5]]]]]]; [lia|repeat split; assumption| |].
    { intros k [[Q E] f] Hk [T1 [T2 [T3 [T4 T5]]]]. assert (Bk : k * xDim ps + xDim ps <= fullXDim ps) by nia.
      unfold f_trajC_step. rewrite (block_ok _ (k * xDim ps) 0) by lia. steps.
      rewrite ?(block_ok _ (k * xDim ps) 0) by lia. steps. rewrite ?(seg_ok _ (k * xDim ps)) by lia. steps.
      eexists. split; [reflexivity|]. cbn. repeat split; congruence. }
    rewrite Eq. cbn [obind]. rewrite f_lin_of_ok by (try exact I; congruence). cbn [obind].
    eexists. split; [reflexivity|]. split; [repeat split|].
    unfold k_shape, k_sized, k_dims. cbn. rewrite HK, HF. repeat split; try assumption; try congruence; try discriminate.
  - destruct Hd as [Hr [Hr' [Hc Hc']]]. unfold f_mixedC_update. rewrite HF.
    destruct (for_inv I0 0 (nrUStep ps) (f_mixedC_step F ps (kM c) (kN c) (kp c) (kw c)) (kQ c, kE c, kf c)) as [[[Q E] f] [Eq [T1 [T2 [T3 [T4 T5]]]]]]; [lia|repeat split; assumption| |].
    { intros k [[Q E] f] Hk [T1 [T2 [T3 [T4 T5]]]]. assert (Bk : k * xDim ps + xDim ps <= fullXDim ps) by nia.
      assert (Bu : k * uDim ps + uDim ps <= fullUDim ps) by nia.
      unfold f_mixedC_step. rewrite (block_ok _ (k * xDim ps) 0) by lia. steps.
      rewrite f_addBlock_ok by (cbn [rows cols]; lia). steps.
      rewrite ?(block_ok _ (k * xDim ps) 0) by lia. steps. rewrite ?(seg_ok _ (k * xDim ps)) by lia. steps.
      eexists. split; [reflexivity|]. cbn. repeat split; congruence. }
    rewrite Eq. cbn [obind]. rewrite f_lin_of_ok by congruence. cbn [obind].
    eexists. split; [reflexivity|]. split; [repeat split|].
    unfold k_shape, k_sized, k_dims. cbn. rewrite HK, HF. repeat split; try assumption; try congruence; try discriminate.
Qed.

(** ** Preview systems *)
Definition f_from (F : arith) (s : psys) : Prop :=
  exists A B d x n p1 h, ps_new A B d x n = Ok p1 /\ f_hist_ok F p1 h /\ f_ps_run F p1 h = Some s.
Definition f_live (F : arith) (D s : psys) : Prop := same_dims s D /\ f_from F s /\ (isUpdated s = true -> computed F s).
(** the same system, exactly updated *)
Definition dress (s : psys) : psys := match updateSystem s with Some s' => s' | None => s end.

Lemma f_from_inv F s : f_from F s -> ps_inv s.
Proof.
  intros [A [B [d [x [n [p1 [h [E [H R]]]]]]]]].
  destruct (f_run_inv F h p1 (system_inv _ _ _ _ _ _ _ E) H) as [p0' [E2' I]]. rewrite R in E2'. injection E2' as <-. exact I.
Qed.
Lemma f_run_app F o : forall h p, f_ps_run F p (h ++ [o]) = match f_ps_run F p h with Some s => f_ps_run F s [o] | None => None end.
Proof. induction h as [|a t IH]; intro p; [reflexivity|]. cbn [f_ps_run app]. destruct (f_ps_step F p a); [apply IH|apply IH|reflexivity]. Qed.
Lemma f_hist_app F o : forall h p s, f_hist_ok F p h -> f_ps_run F p h = Some s -> ps_op_ok s o -> f_hist_ok F p (h ++ [o]).
Proof.
  induction h as [|a t IH]; intros p s H R O; cbn [f_ps_run f_hist_ok app] in *.
  - injection R as <-. split; [exact O|]. destruct (f_ps_step F p o); exact I.
  - destruct H as [Ha H]. split; [exact Ha|]. destruct (f_ps_step F p a); [eapply IH; eassumption|eapply IH; eassumption|exact I].
Qed.
Lemma f_from_step F s o s' : f_from F s -> ps_op_ok s o -> (f_ps_step F s o = Ok s' \/ exists e, f_ps_step F s o = Throw e s') -> f_from F s'.
Proof.
  intros [A [B [d [x [n [p1 [h [E [H R]]]]]]]]] O S. exists A, B, d, x, n, p1, (h ++ [o]). split; [exact E|].
  split; [eapply f_hist_app; eassumption|]. rewrite f_run_app, R. cbn [f_ps_run]. destruct S as [S|[e S]]; rewrite S; reflexivity.
Qed.
Lemma f_from_computed F s s' : f_from F s -> f_updateSystem F s = Some s' -> vsize (x0 s') = xDim s' -> computed F s'.
Proof.
  intros [A [B [d [x [n [p1 [h [E [H R]]]]]]]]] U X.
  exists A, B, d, x, n, p1, h, s, s', (x0 s'). repeat (split; [assumption|]). destruct s'; reflexivity.
Qed.
Lemma f_update_live F D s : f_live F D s -> exists s', f_updateSystem F s = Some s' /\ f_live F D s' /\ isUpdated s' = true /\
  x0 s' = x0 s /\ psA s' = psA s /\ psB s' = psB s /\ psd s' = psd s /\ same_dims s' s.
Proof.
  intros [SD [FR _]]. destruct (f_from_inv F s FR) as [W X].
  destruct (P_any F s W) as [s' [E [W' HP]]].
  assert (K : x0 s' = x0 s /\ psA s' = psA s /\ psB s' = psB s /\ psd s' = psd s /\ same_dims s' s /\ isUpdated s' = true).
  { clear - E. unfold f_updateSystem in E. repeat match type of E with context [obind ?x _] => destruct x; [cbn [obind] in E|discriminate E] end.
    destruct p as [[? ?] ?]. injection E as <-. cbn. repeat split. }
  destruct K as [K1 [K2 [K3 [K4 [K5 K6]]]]]. exists s'. split; [exact E|]. split; [|tauto].
  split; [eapply same_dims_trans; eassumption|]. split.
  - apply (f_from_step F s PUpdate); [exact FR|exact I|]. left. cbn [f_ps_step]. rewrite E. reflexivity.
  - intros _. apply (f_from_computed F s); [exact FR|exact E|]. rewrite K1. destruct K5 as [K5 _]. congruence.
Qed.
Lemma f_ensure_live F D s : f_live F D s -> exists s', f_ensureUpdated F s = Some s' /\ f_live F D s' /\ isUpdated s' = true /\
  x0 s' = x0 s /\ psA s' = psA s /\ psB s' = psB s /\ psd s' = psd s /\ same_dims s' s.
Proof.
  intro L. unfold f_ensureUpdated. destruct (isUpdated s) eqn:U; [|apply f_update_live; exact L].
  exists s. split; [reflexivity|]. split; [exact L|]. repeat split; assumption.
Qed.
Lemma dress_dims s : same_dims (dress s) s /\ x0 (dress s) = x0 s.
Proof.
  unfold dress. destruct (updateSystem s) as [s'|] eqn:E; [|repeat split].
  unfold updateSystem in E. repeat match type of E with context [obind ?x _] => destruct x; [cbn [obind] in E|discriminate E] end.
  destruct p as [[? ?] ?]. injection E as <-. repeat split.
Qed.
Lemma dress_live F D s : f_live F D s -> ps_live D (dress s).
Proof.
  intros [SD [FR _]]. destruct (f_from_inv F s FR) as [W X]. unfold dress.
  destruct (updateSystem_ok s W) as [q [U [W2 [R2 [Up [F1 [F2 [F3 [F4 [F5 [F6 [F7 _]]]]]]]]]]]]. rewrite U.
  split; [eapply same_dims_trans; [|exact SD]; repeat split; assumption|]. split; [exact W2|]. split; [congruence|].
  intros _. exists (psA q), (psB q), (psd q). rewrite setModel_id. auto.
Qed.

(** ** The world with exact systems *)
Lemma f_addBlock_ok F t m0 r c nr nc e : r + nr <= rows m0 -> c + nc <= cols m0 -> rows e = nr -> cols e = nc ->
  exists M, f_addBlock F t m0 r c nr nc e = Some M /\ rows M = rows m0 /\ cols M = cols m0.
Proof.
  intros H1 H2 H3 H4. unfold f_addBlock. rewrite block_ok by lia. cbn [obind]. rewrite H3, H4, !Nat.eqb_refl. cbn [andb].
  rewrite setBlock_ok by (cbn [rows cols]; lia). eexists. split; [reflexivity|]. cbn [rows cols]. auto.
Qed.
Lemma f_is_sum_ok F ps wk : let xd := xDim ps in let fu := fullUDim ps in
  forall l n Q c, rows Q = xd + fu -> cols Q = xd + fu -> vsize c = xd + fu ->
  (forall k, In k l -> rows (kQ (wk k)) = fu /\ cols (kQ (wk k)) = fu /\ rows (kE (wk k)) = xd /\ cols (kE (wk k)) = fu /\ vsize (kf (wk k)) = fu) ->
  exists Q' c', f_is_sum_costs F ps wk n l (Q, c) = Some (Q', c') /\ rows Q' = xd + fu /\ cols Q' = xd + fu /\ vsize c' = xd + fu.
Proof.
  intros xd fu. induction l as [|k t IH]; intros n Q c R C V H; cbn [f_is_sum_costs].
  - exists Q, c. auto.
  - fold xd fu. destruct (H k (or_introl eq_refl)) as [H1 [H2 [H3 [H4 H5]]]].
    rewrite R, C. rewrite (proj2 (Nat.leb_le fu (xd + fu))), (proj2 (Nat.leb_le xd (xd + fu))) by lia. cbn [andb].
    destruct (f_addBlock_ok F [n; 81; 4] Q (xd + fu - fu) (xd + fu - fu) fu fu (kQ (wk k))) as [Q1 [E1 [R1 C1]]]; [lia|lia|assumption..|].
    rewrite E1. cbn [obind]. rewrite C1, C.
    destruct (f_addBlock_ok F [n; 82; 4] Q1 0 (xd + fu - fu) xd fu (kE (wk k))) as [Q2 [E2 [R2 C2]]]; [lia|lia|assumption..|].
    rewrite E2. cbn [obind]. rewrite tail_ok by lia. cbn [obind]. rewrite H5, Nat.eqb_refl.
    rewrite setSeg_ok by (cbn [vsize]; lia). cbn [obind].
    apply IH; cbn [rows cols vsize]; try congruence. intros i Hi. apply H. right. exact Hi.
Qed.
Lemma f_is_corner_ok F inv xd fu R Q : rows Q = xd + fu -> cols Q = xd + fu -> rows R = xd -> cols R = xd ->
  (forall M, rows M = cols M -> rows (inv M) = rows M /\ cols (inv M) = cols M) ->
  exists Q', f_is_corner F inv xd fu R Q = Some Q' /\ rows Q' = xd + fu /\ cols Q' = xd + fu.
Proof.
  intros RQ CQ RR CR I. unfold f_is_corner. rewrite RQ, CQ.
  rewrite (proj2 (Nat.leb_le fu (xd + fu))), (proj2 (Nat.leb_le xd (xd + fu))) by lia. cbn [andb].
  rewrite block_ok by lia. cbn [obind]. rewrite setBlock_ok by (cbn [mtrans rows cols]; lia). cbn [obind rows cols]. rewrite CQ, RQ.
  rewrite block_ok by (cbn [rows cols]; lia). cbn [obind]. rewrite block_ok by (cbn [rows cols]; lia). cbn [obind].
  match goal with |- context [f_mmul _ _ _ (inv ?M)] => destruct (I M eq_refl) as [I1 I2]; cbn [rows cols] in I1, I2 end.
  unfold f_mmul, f_mmadd. cbn [rows cols mtrans]. rewrite I1, I2, RR, CR, !Nat.eqb_refl. cbn [obind andb rows cols]. rewrite ?Nat.eqb_refl. cbn [obind andb rows cols]. rewrite ?Nat.eqb_refl. cbn [obind andb rows cols].
  rewrite setBlock_ok by (cbn [rows cols mtrans]; lia).
  eexists. split; [reflexivity|]. cbn [rows cols]. auto.
Qed.
(** the user gave an InitialStateLMPC data of the size of the state *)
Definition is_given (d : nat) (w : world) : Prop := forall s, m_is (ctl w) = Some s ->
  rows (isR s) = d /\ cols (isR s) = d /\ vsize (isr s) = d /\ vsize (isx0lb s) = d /\ vsize (isx0ub s) = d.
Definition inv_sized (e : senv) : Prop := forall M, rows M = cols M -> rows (s_inv e M) = rows M /\ cols (s_inv e M) = cols M.
Definition reps (w : world) (g : nat -> psys) : world := World g (ncon w) (wcon w) (hcon w) (ncost w) (wcost w) (hcost w) (ctl w).
Definition dressw (w : world) : world := reps w (fun p => dress (wps w p)).
Definition plain_op (o : op) : Prop := match o with OPs _ _ | OSolve _ => False | _ => True end.

Lemma clear_dims p q m : same_dims p q -> clearConstraintMatrices p m = clearConstraintMatrices q m.
Proof. intros [D1 [D2 [D3 [D4 [D5 D6]]]]]. unfold clearConstraintMatrices, optSize. rewrite D1, D6. reflexivity. Qed.
Lemma qsize_dims j p q m : same_dims p q -> updateQPMatrixSize j p m = updateQPMatrixSize j q m.
Proof. intros [D1 [D2 [D3 [D4 [D5 D6]]]]]. unfold updateQPMatrixSize, optSize. rewrite D1, D6. reflexivity. Qed.
Lemma plain_step w g o : plain_op o -> (forall p, same_dims (g p) (wps w p) /\ x0 (g p) = x0 (wps w p)) ->
  step (reps w g) o = out_map (fun v => reps v g) (step w o).
Proof.
  intros PO SD.
  assert (IC : forall j p m, initializeController j (reps (set_ctl w m) g) p =
    match initializeController j (set_ctl w m) p with Some v => Some (reps v g) | None => None end).
  { intros j p m. unfold initializeController. cbn [reps wps set_ctl ctl]. rewrite (clear_dims _ _ _ (proj1 (SD p))).
    destruct (clearConstraintMatrices _ _) as [m'|]; [|reflexivity]. cbn [obind]. rewrite (qsize_dims _ _ _ _ (proj1 (SD p))). reflexivity. }
  assert (OF : forall x, of_opt (match x with Some v => Some (reps v g) | None => None end) = out_map (fun v => reps v g) (of_opt x)).
  { intros [v|]; reflexivity. }
  destruct o as [p po|d|i|i|j i|d|i|i|j i|i v|i x|j k r|j p|j i|j i|i|i| | |r|e|R r|lb ub]; try contradiction PO; cbn [step]; try reflexivity.
  - unfold with_con. cbn [reps hcon]. destruct (0 <? hcon w i); reflexivity.
  - unfold with_con. cbn [reps hcon]. destruct (0 <? hcon w i); reflexivity.
  - unfold with_con. cbn [reps hcon wcon]. destruct (0 <? hcon w i); [|reflexivity]. destruct (c_autoSpan j (wcon w i)); reflexivity.
  - unfold with_cost. cbn [reps hcost]. destruct (0 <? hcost w i); reflexivity.
  - unfold with_cost. cbn [reps hcost]. destruct (0 <? hcost w i); reflexivity.
  - unfold with_cost. cbn [reps hcost wcost]. destruct (0 <? hcost w i); [|reflexivity]. destruct (k_autoSpan j (wcost w i)); reflexivity.
  - unfold with_cost. cbn [reps hcost wcost]. destruct (0 <? hcost w i); [|reflexivity]. destruct (k_weights (wcost w i) v); reflexivity.
  - unfold with_cost. cbn [reps hcost wcost]. destruct (0 <? hcost w i); reflexivity.
  - rewrite <- OF. f_equal. destruct k as [|p| |p]; cbn [construct]; try reflexivity.
    + apply (IC j p).
    + cbn [reps wps]. rewrite (proj2 (SD p)). destruct (SD p) as [[D1 _] _]. rewrite D1. apply (IC j p).
  - rewrite <- OF. f_equal. specialize (IC j p (ctl w)). replace (set_ctl w (ctl w)) with w in IC by (destruct w; reflexivity). exact IC.
  - unfold with_cost. cbn [reps hcost]. destruct (0 <? hcost w i); [|reflexivity]. unfold addCost. cbn [reps ctl wps wcost].
    destruct (m_ps (ctl w)) as [p|]; [|reflexivity]. rewrite (initC_dims j _ _ _ (proj1 (SD p))). destruct (initializeCost j (wps w p) (wcost w i)); reflexivity.
  - unfold with_con. cbn [reps hcon]. destruct (0 <? hcon w i); [|reflexivity]. unfold addConstraint. cbn [reps ctl wps wcon].
    destruct (m_ps (ctl w)) as [p|]; [|reflexivity]. rewrite (init_dims j _ _ _ (proj1 (SD p))). destruct (initializeConstraint j (wps w p) (wcon w i)) as [c|e c|]; try reflexivity.
    rewrite <- OF. f_equal. unfold addConstraintByType. cbn [set_con reps ctl wcon]. destruct (constraintType _); [| |reflexivity];
      match goal with |- context [fits_int ?x] => destruct (fits_int x) end; reflexivity.
  - unfold with_cost. cbn [reps hcost]. destruct (0 <? hcost w i); [|reflexivity]. unfold removeCost. cbn [reps ctl].
    repeat match goal with |- context [match ?x with _ => _ end] => destruct x end; reflexivity.
  - unfold with_con. cbn [reps hcon]. destruct (0 <? hcon w i); [|reflexivity]. rewrite <- OF. f_equal. unfold removeConstraint. cbn [reps ctl wcon].
    destruct (erase_first i (spC (ctl w))); [|reflexivity]. destruct (constraintType (wcon w i)).
    + destruct (erase_first i (spEq (ctl w))); reflexivity.
    + destruct (erase_first i (spIneq (ctl w))); reflexivity.
    + destruct (erase_first i (spB (ctl w))); reflexivity.
  - rewrite <- OF. f_equal. unfold clearConstraints. cbn [reps ctl wps]. destruct (m_ps (ctl w)) as [p|]; [|reflexivity].
    rewrite (clear_dims _ _ _ (proj1 (SD p))). destruct (clearConstraintMatrices _ _); reflexivity.
Qed.

Lemma self_reps w : reps w (wps w) = w. Proof. destruct w; reflexivity. Qed.
Lemma plain_wps w o w' : plain_op o -> stepped w o w' -> wps w' = wps w.
Proof.
  intros PO S. pose proof (plain_step w (wps w) o PO) as E. rewrite self_reps in E.
  specialize (E ltac:(intro; split; [repeat split|reflexivity])).
  destruct S as [S|[x S]]; rewrite S in E; cbn [out_map] in E; injection E as E; rewrite E; reflexivity.
Qed.

Section Keeps.
Variables (u : Qc) (F : arith) (Ac : accurate u F) (reg : Qc).
Variables n m N : nat.
Hypothesis SF : sizes_fit n m N.
Notation D := (dps n m N).

(** ** Objects *)
Lemma f_con_ok ps c : computed F ps -> same_dims ps D -> c_inited D c ->
  exists c', f_c_update F ps c = Some c' /\ c_inited D c' /\ same_obj c c'.
Proof using Ac.
  intros C SD [Sh [En [Sp Fi]]]. apply same_dims_sym in SD.
  assert (Sh' : c_shape ps c) by (eapply c_shape_dims; eassumption).
  assert (G : exists c', f_c_update F ps c = Some c' /\ same_obj c c' /\ c_shape ps c').
  { assert (KC : (ck c <> KCtrl /\ ck c <> KCtrlB) \/ ck c = KCtrl \/ ck c = KCtrlB).
    { clear. destruct (ck c); try (right; auto; fail); left; split; discriminate. }
    destruct KC as [[K1 K2]|[K|K]].
    - destruct (f_c_update_ok u F ps c Ac C K1 K2 Sh') as [c' [E [S1 [S2 _]]]]. exists c'. split; [exact E|]. split; [|exact S2].
      apply same_data_obj; assumption.
    - destruct (computed_twin F ps C) as [q [R Dq]]. destruct (c_update_ok q R c) as [c' [E [S1 [S2 [S3 _]]]]]; [eapply c_shape_dims; [apply same_dims_sym; exact Dq|exact Sh']|].
      exists c'. split; [unfold f_c_update, c_update in *; rewrite K in *; rewrite (ctrl_update_dims ps q); [exact E|apply same_dims_sym; exact Dq]|].
      split; [split; assumption|eapply c_shape_dims; [exact Dq|exact S2]].
    - destruct (computed_twin F ps C) as [q [R Dq]]. destruct (c_update_ok q R c) as [c' [E [S1 [S2 [S3 _]]]]]; [eapply c_shape_dims; [apply same_dims_sym; exact Dq|exact Sh']|].
      exists c'. split; [unfold f_c_update, c_update in *; rewrite K in *; rewrite (ctrlB_update_dims ps q); [exact E|apply same_dims_sym; exact Dq]|].
      split; [split; assumption|eapply c_shape_dims; [exact Dq|exact S2]]. }
  destruct G as [c' [E [SO S2]]]. exists c'. split; [exact E|]. split; [|exact SO].
  split; [eapply c_shape_dims; [apply same_dims_sym; exact SD|exact S2]|].
  destruct SO as [[D1 [D2 [D3 [D4 [D5 [D6 [D7 [D8 [D9 [D10 _]]]]]]]]]] _].
  unfold c_entry, c_spanned in *. rewrite D1, D3, D4, D6, D7, D8, D9, D10. auto.
Qed.
Lemma f_cost_ok ps c : computed F ps -> same_dims ps D -> k_inited D c ->
  exists c', f_k_update F ps c = Some c' /\ k_inited D c' /\ k_same c c'.
Proof using Ac.
  intros C SD [Sh En]. apply same_dims_sym in SD.
  assert (Sh' : k_shape ps c) by (eapply k_shape_dims; eassumption).
  assert (G : exists c', f_k_update F ps c = Some c' /\ k_same c c' /\ k_shape ps c').
  { destruct (k_acc c) eqn:A.
    - destruct (computed_inv F ps C) as [W X]. apply acc_update_ok; assumption.
    - destruct (f_update_ok u F ps c Ac C Sh') as [c' [E [S1 [S2 _]]]]; [eapply k_entry_dims; eassumption|unfold k_zero; rewrite A; discriminate|eauto]. }
  destruct G as [c' [E [SO S2]]]. exists c'. split; [exact E|]. split; [|exact SO].
  split; [eapply k_shape_dims; [apply same_dims_sym; exact SD|exact S2]|].
  destruct SO as [K1 [K2 [K3 [K4 [K5 K6]]]]]. unfold k_entry in *. rewrite K1, K2, K3, K4. exact En.
Qed.
Lemma f_cons_ok ps : computed F ps -> same_dims ps D -> forall l wc, (forall i, In i l -> c_inited D (wc i)) ->
  exists wc', f_update_cons F ps l wc = Some wc' /\ (forall i, c_inited D (wc i) -> c_inited D (wc' i)) /\
    (forall i, ~ In i l -> wc' i = wc i) /\ (forall i, same_obj (wc i) (wc' i)).
Proof using Ac.
  intros C SD. unfold f_update_cons. induction l as [|x t IH]; intros wc H; cbn [for_list].
  - exists wc. split; [reflexivity|]. split; [auto|]. split; [auto|intro; apply same_obj_refl].
  - destruct (f_con_ok ps (wc x) C SD (H x (or_introl eq_refl))) as [c [Ec [Hc Nc]]]. rewrite Ec. cbn [obind].
    destruct (IH (upd wc x c)) as [wc' [E [H1 [H2 H3]]]].
    + intros i Hi. unfold upd. destruct (Nat.eqb_spec i x) as [->|]; [exact Hc|apply H; right; exact Hi].
    + exists wc'. split; [exact E|]. split; [|split].
      * intros i Hi. apply H1. unfold upd. destruct (Nat.eqb_spec i x) as [->|]; [exact Hc|exact Hi].
      * intros i Hi. rewrite H2 by (intro; apply Hi; right; assumption). unfold upd.
        destruct (Nat.eqb_spec i x) as [->|]; [exfalso; apply Hi; left; reflexivity|reflexivity].
      * intro i. eapply same_obj_trans; [|apply H3]. unfold upd. destruct (Nat.eqb_spec i x) as [->|]; [exact Nc|apply same_obj_refl].
Qed.
Lemma f_costs_ok ps : computed F ps -> same_dims ps D -> forall l wk, (forall i, In i l -> k_inited D (wk i)) ->
  exists wk', f_update_costs F ps l wk = Some wk' /\ (forall i, k_inited D (wk i) -> k_inited D (wk' i)) /\
    (forall i, ~ In i l -> wk' i = wk i) /\ (forall i, k_same (wk i) (wk' i)).
Proof using Ac.
  intros C SD. unfold f_update_costs. induction l as [|x t IH]; intros wk H; cbn [for_list].
  - exists wk. split; [reflexivity|]. split; [auto|]. split; [auto|intro; apply k_same_refl].
  - destruct (f_cost_ok ps (wk x) C SD (H x (or_introl eq_refl))) as [c [Ec [Hc Nc]]]. rewrite Ec. cbn [obind].
    destruct (IH (upd wk x c)) as [wk' [E [H1 [H2 H3]]]].
    + intros i Hi. unfold upd. destruct (Nat.eqb_spec i x) as [->|]; [exact Hc|apply H; right; exact Hi].
    + exists wk'. split; [exact E|]. split; [|split].
      * intros i Hi. apply H1. unfold upd. destruct (Nat.eqb_spec i x) as [->|]; [exact Hc|exact Hi].
      * intros i Hi. rewrite H2 by (intro; apply Hi; right; assumption). unfold upd.
        destruct (Nat.eqb_spec i x) as [->|]; [exfalso; apply Hi; left; reflexivity|reflexivity].
      * intro i. eapply k_same_trans; [|apply H3]. unfold upd. destruct (Nat.eqb_spec i x) as [->|]; [exact Nc|apply k_same_refl].
Qed.
Lemma f_sum_ok fu wk : forall l k Q c, rows Q = fu -> cols Q = fu -> vsize c = fu ->
  (forall i, In i l -> rows (kQ (wk i)) = fu /\ cols (kQ (wk i)) = fu /\ vsize (kc (wk i)) = fu) ->
  exists Q' c', f_sum_costs F k wk l (Q, c) = Some (Q', c') /\ rows Q' = fu /\ cols Q' = fu /\ vsize c' = fu.
Proof using.
  induction l as [|i t IH]; intros k Q c R C V H; cbn [f_sum_costs].
  - exists Q, c. auto.
  - destruct (H i (or_introl eq_refl)) as [H1 [H2 H3]]. unfold f_add_cost. rewrite R, C, V, H1, H2, H3, !Nat.eqb_refl. cbn [andb obind].
    apply IH; cbn [rows cols vsize]; try reflexivity; try assumption; intros x Hx; apply H; right; exact Hx.
Qed.

(** ** The invariant *)
Definition f_pinv (w : world) : Prop := pinv D (dressw w) /\ forall p, 1 <= nrUStep (wps w p) -> f_live F D (wps w p).

Lemma pinv_reps w g g' : pinv D (reps w g) -> (forall p, 1 <= nrUStep (g' p) -> ps_live D (g' p)) ->
  (forall p, nrUStep (g' p) = nrUStep (g p)) -> pinv D (reps w g').
Proof using.
  intros P L E. pose proof P as [pi_reg0 pi_ps0 pi_con0 pi_cost0 pi_rcon0 pi_rcost0 pi_m0 pi_e0 pi_i0 pi_b0]. split; cbn [reps wps wcon wcost ctl] in *; try assumption.
  - apply (kept_inv _ _ pi_reg0). repeat split; reflexivity.
  - intros p Hp. rewrite E. apply pi_m0. exact Hp.
Qed.
Lemma dress_nu s : nrUStep (dress s) = nrUStep s.
Proof using. destruct (dress_dims s) as [[_ [_ [H _]]] _]. exact H. Qed.
Lemma f_pinv_ps w p s : f_pinv w -> (1 <= nrUStep s -> f_live F D s) -> (1 <= nrUStep (wps w p) -> 1 <= nrUStep s) -> f_pinv (set_ps w p s).
Proof using.
  intros [P L] Ls K. assert (L' : forall q, 1 <= nrUStep (wps (set_ps w p s) q) -> f_live F D (wps (set_ps w p s) q)).
  { intro q. cbn [set_ps wps]. unfold upd. destruct (Nat.eqb q p); [exact Ls|apply L]. }
  split; [|exact L']. pose proof P as [pi_reg0 pi_ps0 pi_con0 pi_cost0 pi_rcon0 pi_rcost0 pi_m0 pi_e0 pi_i0 pi_b0]. split; cbn [dressw reps set_ps wps wcon wcost ctl] in *; try assumption.
  - apply (kept_inv _ _ pi_reg0). repeat split; reflexivity.
  - intros q Hq. apply (dress_live F). apply L'. rewrite dress_nu in Hq. exact Hq.
  - intros q Hq. rewrite dress_nu. destruct (pi_m0 q Hq) as [Hn Z]. rewrite dress_nu in Hn. split; [|exact Z].
    unfold upd. destruct (Nat.eqb_spec q p) as [->|]; [apply K; exact Hn|exact Hn].
Qed.
Lemma f_system_any ps ps' A B d x k q : system ps A B d x k = Ok q -> system ps' A B d x k = Ok q.
Proof using.
  unfold system. repeat match goal with |- context [if ?b then _ else _] => destruct b end; try discriminate; auto.
Qed.
Lemma xInit_computed s x : computed F s -> vsize x = xDim s -> computed F (ps_xInit s x).
Proof using.
  intros [A [B [d [x1 [k [p1 [h [p0 [q [x' [E1 [H [E2 [E3 [Hx ->]]]]]]]]]]]]]]] Hs.
  exists A, B, d, x1, k, p1, h, p0, q, x. repeat (split; [assumption|]). reflexivity.
Qed.
Lemma f_ps_ok w p o : f_pinv w -> legal n m N w (OPs p o) -> honest_op w (OPs p o) ->
  exists s', (f_ps_step F (wps w p) o = Ok s' \/ exists e, f_ps_step F (wps w p) o = Throw e s') /\
    (1 <= nrUStep s' -> f_live F D s') /\ (1 <= nrUStep (wps w p) -> 1 <= nrUStep s').
Proof using SF.
  intros [P L] Lg Ho. destruct o as [A B d x k|x|A B d| | |]; cbn [f_ps_step ps_step legal honest_op] in *.
  - pose proof (system_ok n m N SF (dressw w) p A B d x k P Lg) as H. cbn [dressw reps wps] in H.
    destruct (system (dress (wps w p)) A B d x k) as [q|e q|] eqn:E.
    + pose proof (f_system_any _ (wps w p) _ _ _ _ _ _ E) as E'. exists q. split; [left; exact E'|].
      assert (Nq : 1 <= nrUStep q) by (destruct H as [_ [W _]]; apply W).
      split; [|auto]. intros _. split; [apply H|]. split.
      * exists A, B, d, x, k, q, []. split; [eapply f_system_any; exact E|]. split; [exact I|reflexivity].
      * intro U. exfalso. pose proof (system_cases (wps w p) A B d x k) as C. rewrite E' in C.
        destruct C as [H1 [H2 [H3 [H4 [H5 [WF [U' _]]]]]]]. congruence.
    + exists (wps w p). split; [right|]. 2:{ split; [apply L|auto]. }
      exists e. clear - E. unfold system in *. repeat match goal with |- context [if ?b then _ else _] => destruct b end; try (injection E as -> <-; reflexivity); try discriminate E.
      destruct (obind _ _) in E; discriminate E.
    + contradiction.
  - destruct Lg as [Is Hx]. eexists. split; [left; reflexivity|]. split; [|auto]. intros _. destruct (L p Is) as [SD [FR C]].
    split; [exact SD|]. split; [apply (f_from_step F (wps w p) (PXInit x)); [exact FR|exact Ho|left; reflexivity]|]. intro U. apply xInit_computed; [apply C; exact U|exact Ho].
  - destruct Lg as [Is Hx]. destruct Ho as [U Ho]. eexists. split; [left; reflexivity|]. split; [|auto]. intros _. destruct (L p Is) as [SD [FR C]].
    split; [exact SD|]. split; [apply (f_from_step F (wps w p) (PSetModel A B d)); [exact FR|exact Ho|left; reflexivity]|]. intro U'. cbn in U'. congruence.
  - eexists. split; [left; reflexivity|]. split; [|auto]. intro Hn. destruct (L p Hn) as [SD [FR C]].
    split; [exact SD|]. split; [apply (f_from_step F (wps w p) PClearUpdated); [exact FR|exact I|left; reflexivity]|]. intro U'. discriminate U'.
  - destruct (f_update_live F D _ (L p Lg)) as [s' [E [Ls [U R]]]]. rewrite E. exists s'. split; [left; reflexivity|]. split; [auto|].
    destruct R as [_ [_ [_ [_ [_ [_ [Hn _]]]]]]]. rewrite Hn. auto.
  - destruct (f_ensure_live F D _ (L p Lg)) as [s' [E [Ls [U R]]]]. unfold f_ensureUpdated in E. rewrite E. exists s'. split; [left; reflexivity|]. split; [auto|].
    destruct R as [_ [_ [_ [_ [_ [_ [Hn _]]]]]]]. rewrite Hn. auto.
Qed.
Lemma plain_legal w o : plain_op o -> legal n m N w o -> legal n m N (dressw w) o.
Proof using.
  intros PO L. destruct o as [p po|d|i|i|j i|d|i|i|j i|i v|i x|j k r|j p|j i|j i|i|i| | |r|e|R r|lb ub]; try contradiction PO; try exact L.
  - destruct k as [|p| |p]; try exact L; unfold legal, is_set in *; cbn [dressw reps wps]; rewrite dress_nu; exact L.
  - unfold legal, is_set in *; cbn [dressw reps wps]; rewrite dress_nu; exact L.
  - unfold legal, has_system in *. cbn [dressw reps wps ctl wcon]. destruct (m_ps (ctl w)) as [p|] eqn:Ep; [|exact L].
    rewrite (row_count_dims (dress (wps w p)) (wps w p)) by apply dress_dims. exact L.
Qed.
Lemma f_plain_ok w o : plain_op o -> f_pinv w -> legal n m N w o ->
  match step w o with Ok w' | Throw _ w' => f_pinv w' /\ wps w' = wps w | UB => False end.
Proof using SF.
  intros PO [P L] Lg. pose proof (step_ok n m N SF (dressw w) o P (plain_legal w o PO Lg)) as H.
  unfold dressw at 1 in H. rewrite plain_step in H by (assumption || (intro p; apply dress_dims)).
  assert (G : forall w', stepped w o w' -> pinv D (reps w' (fun p => dress (wps w p))) -> f_pinv w' /\ wps w' = wps w).
  { intros w' S P'. pose proof (plain_wps w o w' PO S) as E. split; [|exact E]. split; [unfold dressw; rewrite E; exact P'|rewrite E; exact L]. }
  destruct (step w o) as [w'|e w'|] eqn:S; cbn [out_map] in H; [apply G; [left; exact S|exact H]|apply G; [right; eauto|exact H]|exact H].
Qed.

(** ** solve *)
Lemma f_build_ok e w p : f_pinv w -> m_ps (ctl w) = Some p -> is_given n w -> inv_sized e ->
  exists w1, f_build F reg e w = Some w1 /\ f_pinv w1 /\ isUpdated (wps w1 p) = true /\ m_ps (ctl w1) = Some p /\ m_is (ctl w1) = m_is (ctl w).
Proof using Ac.
  intros [P L] Ep IS INV. pose proof P as [pi_reg0 pi_ps0 pi_con0 pi_cost0 pi_rcon0 pi_rcost0 pi_m0 pi_e0 pi_i0 pi_b0].
  cbn [dressw reps wps wcon wcost ctl] in *.
  destruct (pi_m0 p Ep) as [Np [Z1 [Z2 [Z3 [Z4 Z5]]]]]. rewrite dress_nu in Np.
  destruct (f_ensure_live F D _ (L p Np)) as [ps [Eu [Lp [Up Rst]]]].
  pose proof Lp as [SD [FR CC]]. specialize (CC Up). pose proof SD as [D1 [D2 [D3 [D4 [D5 D6]]]]].
  destruct (f_cons_ok ps CC SD (spC (ctl w)) (wcon w) pi_rcon0) as [wc [Ec [C1 [C2 C3]]]].
  destruct (f_costs_ok ps CC SD (spCost (ctl w)) (wcost w) pi_rcost0) as [wk [Ek [K1 [K2 K3]]]].
  assert (F1 : fits_int (total_rows (wcon w) (spEq (ctl w))) = true) by (eapply fits_le; [apply pi_e0|apply pi_e0]).
  assert (F2 : fits_int (total_rows (wcon w) (spIneq (ctl w))) = true) by (eapply fits_le; [apply pi_i0|apply pi_i0]).
  assert (NR : forall i, nrConstr (wc i) = nrConstr (wcon w i)) by (intro i; destruct (C3 i) as [[_ [_ [H3 _]]] _]; exact H3).
  assert (KD : forall i, same_kind (wcon w i) (wc i)) by (intro i; destruct (C3 i) as [[H1 [H2 _]] _]; split; congruence).
  assert (SZ : forall i, In i (spEq (ctl w)) \/ In i (spIneq (ctl w)) -> con_sized (xDim ps) (fullUDim ps) (wc i)).
  { intros i Hi. rewrite D1, D6. assert (In i (spC (ctl w)) /\ constraintType (wcon w i) <> BoundConstraint) as [Hc Ht].
    { destruct pi_reg0 as [RE RI RB _ _ _ _]. cbn [dressw reps ctl wcon] in *. destruct Hi as [Hi|Hi]; rewrite ?RE, ?RI in Hi; apply of_type_in in Hi as [H1 H2]; (split; [exact H1|]);
        unfold has_type in H2; intro E; rewrite E in H2; discriminate H2. }
    apply inited_sized; [apply C1, pi_rcon0, Hc|]. rewrite (proj1 (KD i)). intro E. apply Ht. unfold constraintType. rewrite E. reflexivity. }
  assert (SB : forall i, In i (spB (ctl w)) -> nrConstr (wc i) = fullUDim ps /\ vsize (clb (wc i)) = fullUDim ps /\ vsize (cub (wc i)) = fullUDim ps).
  { intros i Hi. rewrite D6. destruct pi_reg0 as [RE RI RB _ _ _ _]. cbn [dressw reps ctl wcon] in *. rewrite RB in Hi. apply of_type_in in Hi as [H1 H2].
    assert (K : ck (wc i) = KCtrlB).
    { rewrite (proj1 (KD i)). unfold has_type, constraintType in H2. destruct (ck (wcon w i)); try reflexivity; destruct (isIneq (wcon w i)); discriminate. }
    destruct (C1 i (pi_rcon0 i H1)) as [Sh _]. unfold c_shape in Sh. rewrite K in Sh. intuition congruence. }
  assert (SK : forall i, In i (spCost (ctl w)) -> k_sized ps (wk i)).
  { intros i Hi. destruct (K1 i (pi_rcost0 i Hi)) as [[Z _] _]. unfold k_sized in *. rewrite D1, D6. exact Z. }
  unfold f_build, f_lmpc_updateSystem. rewrite Ep, Eu. cbn [obind]. unfold updateNr. cbn [spEq spIneq spC spB set_qpm]. rewrite F1, F2. cbn [andb obind].
  cbn [spC spCost updateConstraintMatrixSize set_qpm set_lists]. rewrite Ec. cbn [obind]. rewrite Ek. cbn [obind].
  cbn [ctl m_ps m_is updateConstraintMatrixSize set_qpm set_lists]. rewrite Ep. cbn [wps].
  replace (upd (wps w) p ps p) with ps by (unfold upd; rewrite Nat.eqb_refl; reflexivity).
  match goal with |- context [f_makeQPForm F ps ?W] => set (w0 := W) end.
  set (m1 := updateConstraintMatrixSize _ _ _) in w0.
  assert (exists q, (match m_is (ctl w) with None => f_makeQPForm F ps w0 | Some is => f_is_makeQPForm F (s_inv e) is ps w0 end) = Some q /\
            qp_sized (opt D (ctl w)) q) as [q [Eq Sq]].
  { destruct (m_is (ctl w)) as [is|] eqn:Ei.
    - unfold f_is_makeQPForm. cbv zeta. unfold w0. cbn [ctl wcost wcon m1 m_qp set_qpm set_lists spCost spEq spIneq spB].
    unfold m1, updateConstraintMatrixSize. cbn [ctl wcost wcon m_qp set_qpm set_lists spCost spEq spIneq spB qQ qc qAeq qbeq qAineq qbineq qlb qub f_resetQP mscal mident rows cols nrEq nrIneq].
    match goal with |- context [optSize ?M ps] => assert (EO : optSize M ps = xDim ps + fullUDim ps) by (unfold optSize; cbn; rewrite Ei; cbn; reflexivity) end.
    destruct (IS is Ei) as [I1 [I2 [I3 [I4 I5]]]]. change n with (xDim D) in I1, I2, I3, I4, I5.
    unfold opt in *. rewrite Ei in *. rewrite EO.
    destruct (f_is_sum_ok F ps wk (spCost (ctl w)) 0 (mscal reg (mident (rows (qQ (m_qp (ctl w)))) (cols (qQ (m_qp (ctl w))))))
                (vconst (vsize (qc (m_qp (ctl w)))) 0%Qc)) as [Q [c [E1 [RQ [CQ VC]]]]];
      [cbn; congruence|cbn; congruence|cbn; congruence| |].
    { intros k Hk. destruct (SK k Hk) as [A1 [A2 [A3 [A4 [A5 A6]]]]]. auto. }
    rewrite E1. cbn [obind].
    match goal with |- context [is_stack_rows _ _ wc (spEq (ctl w)) (?a, ?b, 0)] =>
      destruct (is_stack_rows_ok wc (xDim ps) (fullUDim ps) (spEq (ctl w)) a b 0) as [Ae [be [ne [E2 _]]]] end;
      [apply mresize_cols|rewrite vresize_size, mresize_rows; reflexivity
      |rewrite mresize_rows; rewrite (total_rows_ext (wcon w) wc) by (intros; apply NR); cbn; lia|auto|].
    rewrite E2. cbn [obind].
    match goal with |- context [is_stack_rows _ _ wc (spIneq (ctl w)) (?a, ?b, 0)] =>
      destruct (is_stack_rows_ok wc (xDim ps) (fullUDim ps) (spIneq (ctl w)) a b 0) as [Ai [bi [ni [E3 _]]]] end;
      [apply mresize_cols|rewrite vresize_size, mresize_rows; reflexivity
      |rewrite mresize_rows; rewrite (total_rows_ext (wcon w) wc) by (intros; apply NR); cbn; lia|auto|].
    rewrite E3. cbn [obind].
    destruct (stack_bounds_ok wc (fullUDim ps) (spB (ctl w)) (qlb (m_qp (ctl w))) (qub (m_qp (ctl w))) (xDim ps) pi_b0) as [lb [ub [nb [E4 [L1 L2]]]]];
      [rewrite Z4, D1, D6; lia|rewrite Z5, D1, D6; lia|exact SB|].
    rewrite E4. cbn [obind].
    destruct (f_is_corner_ok F (s_inv e) (xDim ps) (fullUDim ps) (isR is) Q RQ CQ) as [Q' [E5 [RQ' CQ']]]; [congruence|congruence|exact INV|].
    rewrite E5. cbn [obind]. unfold setHead.
    rewrite setSeg_ok by (rewrite ?VC; lia). cbn [obind].
    rewrite setSeg_ok by (rewrite ?L1, ?Z4; lia). cbn [obind].
    rewrite setSeg_ok by (rewrite ?L2, ?Z5; lia). cbn [obind].
    eexists. split; [reflexivity|]. unfold qp_sized. cbn [qQ qc qAineq qbineq qAeq qbeq qlb qub vsize]. rewrite <- D1, <- D6. repeat split; congruence.
    - unfold f_makeQPForm. cbv zeta. unfold w0. cbn [ctl wcost wcon m1 m_qp set_qpm set_lists spCost spEq spIneq spB].
    unfold m1, updateConstraintMatrixSize. cbn [ctl wcost wcon m_qp set_qpm set_lists spCost spEq spIneq spB qQ qc qAeq qbeq qAineq qbineq qlb qub f_resetQP mscal mident rows cols nrEq nrIneq].
    match goal with |- context [optSize ?M ps] => assert (EO : optSize M ps = fullUDim ps) by (unfold optSize; cbn; rewrite Ei; cbn; reflexivity) end.
    unfold opt in *. rewrite Ei in *. rewrite EO.
    destruct (f_sum_ok (fullUDim ps) wk (spCost (ctl w)) 0 (mscal reg (mident (rows (qQ (m_qp (ctl w)))) (cols (qQ (m_qp (ctl w))))))
                (vconst (vsize (qc (m_qp (ctl w)))) 0%Qc)) as [Q [c [E1 [RQ [CQ VC]]]]];
      [cbn; congruence|cbn; congruence|cbn; congruence| |].
    { intros k Hk. destruct (SK k Hk) as [A1 [A2 [A3 [A4 [A5 A6]]]]]. auto. }
    rewrite E1. cbn [obind].
    match goal with |- context [stack_rows _ wc (spEq (ctl w)) (?a, ?b, 0)] =>
      destruct (stack_rows_ok wc (xDim ps) (fullUDim ps) (spEq (ctl w)) a b 0) as [Ae [be [ne [E2 _]]]] end;
      [apply mresize_cols|rewrite vresize_size, mresize_rows; reflexivity
      |rewrite mresize_rows; rewrite (total_rows_ext (wcon w) wc) by (intros; apply NR); cbn; lia|auto|].
    rewrite E2. cbn [obind].
    match goal with |- context [stack_rows _ wc (spIneq (ctl w)) (?a, ?b, 0)] =>
      destruct (stack_rows_ok wc (xDim ps) (fullUDim ps) (spIneq (ctl w)) a b 0) as [Ai [bi [ni [E3 _]]]] end;
      [apply mresize_cols|rewrite vresize_size, mresize_rows; reflexivity
      |rewrite mresize_rows; rewrite (total_rows_ext (wcon w) wc) by (intros; apply NR); cbn; lia|auto|].
    rewrite E3. cbn [obind].
    destruct (stack_bounds_ok wc (fullUDim ps) (spB (ctl w)) (qlb (m_qp (ctl w))) (qub (m_qp (ctl w))) 0 pi_b0) as [lb [ub [nb [E4 [L1 L2]]]]];
      [rewrite Z4, D6; lia|rewrite Z5, D6; lia|exact SB|].
    rewrite E4. cbn [obind].
    eexists. split; [reflexivity|]. unfold qp_sized. cbn [qQ qc qAineq qbineq qAeq qbeq qlb qub]. rewrite <- D6. repeat split; congruence. }
  rewrite Eq. cbn [obind]. eexists. split; [reflexivity|].
  set (w1 := set_ctl w0 _).
  split; [|split; [|split]].
  - assert (L1 : forall r, 1 <= nrUStep (wps w1 r) -> f_live F D (wps w1 r)).
    { intros r Hr. unfold w1, w0 in *. cbn [set_ctl wps] in *. unfold upd in *. destruct (Nat.eqb r p); [exact Lp|auto]. }
    split; [|exact L1].
    assert (RI : reg_inv (dressw w1)).
    { apply (kept_inv (dressw w)); [exact pi_reg0|]. unfold w1, w0. repeat split; cbn; apply KD. }
    split; [exact RI|..]; cbn [dressw reps wps wcon wcost ctl].
    + intros r Hr. rewrite dress_nu in Hr. apply (dress_live F), L1, Hr.
    + intro i. unfold w1, w0. cbn [set_ctl wcon]. destruct (in_dec Nat.eq_dec i (spC (ctl w))) as [Hi|Hi].
      * right. apply C1, pi_rcon0, Hi.
      * rewrite C2 by exact Hi. apply pi_con0.
    + intro i. unfold w1, w0. cbn [set_ctl wcost]. destruct (in_dec Nat.eq_dec i (spCost (ctl w))) as [Hi|Hi].
      * right. apply K1, pi_rcost0, Hi.
      * rewrite K2 by exact Hi. apply pi_cost0.
    + intros i Hi. apply C1, pi_rcon0, Hi.
    + intros i Hi. apply K1, pi_rcost0, Hi.
    + intros r Hr. change (m_ps (ctl w1)) with (m_ps (ctl w)) in Hr. rewrite Ep in Hr. injection Hr as <-. rewrite dress_nu. split; [|exact Sq].
      unfold w1, w0. cbn [set_ctl wps]. unfold upd. rewrite Nat.eqb_refl.
      destruct (f_from_inv F ps FR) as [W _]. apply W.
    + unfold w1, w0, m1. cbn -[total_rows fits_int]. rewrite (total_rows_ext (wcon w) wc) by (intros; apply NR). split; [lia|exact F1].
    + unfold w1, w0, m1. cbn -[total_rows fits_int]. rewrite (total_rows_ext (wcon w) wc) by (intros; apply NR). split; [lia|exact F2].
    + exact pi_b0.
  - unfold w1, w0. cbn. unfold upd. rewrite Nat.eqb_refl. exact Up.
  - exact Ep.
  - reflexivity.
Qed.
Lemma f_build_parts e w w1 : f_build F reg e w = Some w1 ->
  exists p ps wc wk q, m_ps (ctl w) = Some p /\ f_ensureUpdated F (wps w p) = Some ps /\
    f_update_cons F ps (spC (ctl w)) (wcon w) = Some wc /\ f_update_costs F ps (spCost (ctl w)) (wcost w) = Some wk /\
    let m1 := updateConstraintMatrixSize (s_junk e) ps
      (set_lists (set_qpm (ctl w) (f_resetQP reg (m_qp (ctl w)))) (total_rows (wcon w) (spEq (ctl w))) (total_rows (wcon w) (spIneq (ctl w)))
         (spC (ctl w)) (spEq (ctl w)) (spIneq (ctl w)) (spB (ctl w))) in
    let w0 := World (upd (wps w) p ps) (ncon w) wc (hcon w) (ncost w) wk (hcost w) m1 in
    (match m_is (ctl w) with None => f_makeQPForm F ps w0 | Some is => f_is_makeQPForm F (s_inv e) is ps w0 end) = Some q /\
    w1 = World (upd (wps w) p ps) (ncon w) wc (hcon w) (ncost w) wk (hcost w) (set_qpm m1 q).
Proof using.
  unfold f_build, f_lmpc_updateSystem. destruct (m_ps (ctl w)) as [p|] eqn:Ep; [|discriminate].
  destruct (f_ensureUpdated F (wps w p)) as [ps|] eqn:Eu; [|discriminate]. cbn [obind].
  unfold updateNr. cbn [spEq spIneq spC spB set_qpm].
  destruct (fits_int (total_rows (wcon w) (spEq (ctl w)))) eqn:F1; [|discriminate].
  destruct (fits_int (total_rows (wcon w) (spIneq (ctl w)))) eqn:F2; [|discriminate]. cbn [obind andb].
  cbn [spC spCost updateConstraintMatrixSize set_qpm set_lists].
  destruct (f_update_cons F ps (spC (ctl w)) (wcon w)) as [wc|] eqn:Ec; [|discriminate]. cbn [obind].
  destruct (f_update_costs F ps (spCost (ctl w)) (wcost w)) as [wk|] eqn:Ek; [|discriminate]. cbn [obind].
  cbn [ctl m_ps m_is updateConstraintMatrixSize set_qpm set_lists]. rewrite Ep. cbn [wps].
  replace (upd (wps w) p ps p) with ps by (unfold upd; rewrite Nat.eqb_refl; reflexivity).
  intro H. exists p, ps, wc, wk.
  match type of H with obind ?x _ = _ => destruct x as [q|] eqn:Eq; [|discriminate] end.
  cbn [obind] in H. injection H as <-. exists q. do 4 (split; [assumption || reflexivity|]).
  cbv zeta. split; reflexivity.
Qed.
Lemma f_pinv_ctl w M : f_pinv w -> m_is M = m_is (ctl w) -> m_ps M = m_ps (ctl w) -> m_qp M = m_qp (ctl w) ->
  nrEq M = nrEq (ctl w) -> nrIneq M = nrIneq (ctl w) -> spC M = spC (ctl w) -> spEq M = spEq (ctl w) ->
  spIneq M = spIneq (ctl w) -> spB M = spB (ctl w) -> spCost M = spCost (ctl w) -> f_pinv (set_ctl w M).
Proof using. intros [P L] H1 H2 H3 H4 H5 H6 H7 H8 H9 H10. split; [|exact L]. apply (pinv_ctl D (dressw w) M); assumption. Qed.
Lemma checkDelete_reps w g : checkDelete (reps w g) = reps (checkDelete w) g.
Proof using. reflexivity. Qed.
Lemma f_preview_some ps U : ps_wf ps -> vsize (x0 ps) = xDim ps -> vsize U = fullUDim ps ->
  exists x, f_preview F ps (x0 ps) U = Some x.
Proof using.
  intros W X Z. unfold f_preview.
  rewrite (wf_Phc ps W), (wf_Psc ps W), (wf_Phr ps W), (wf_Psr ps W), (wf_xi ps W), X, Z, !Nat.eqb_refl. eexists. reflexivity.
Qed.
Lemma f_solve_ok e w : f_pinv w -> m_ps (ctl w) <> None -> is_given n w -> inv_sized e ->
  (forall k a b q r, s_qp e k a b q = (true, r) -> vsize r = k) ->
  exists b w', f_solve F reg e w = Some (b, w') /\ f_pinv w'.
Proof using Ac.
  intros P NP IS INV SOL. destruct (m_ps (ctl w)) as [p|] eqn:Ep; [|congruence].
  destruct (f_build_ok e w p P Ep IS INV) as [w1 [Eb [P1 [Up [Ep1 Ei1]]]]].
  unfold f_solve. rewrite Eb. cbn [obind]. destruct (s_qp e _ _ _ _) as [ok r] eqn:Es.
  set (w2 := set_ctl w1 _).
  assert (P2 : f_pinv w2) by (apply f_pinv_ctl; [exact P1|reflexivity..]).
  assert (P3 : f_pinv (checkDelete w2)).
  { split; [|exact (proj2 P2)]. change (dressw (checkDelete w2)) with (checkDelete (dressw w2)). apply pinv_checkDelete, P2. }
  set (w3 := checkDelete w2) in *.
  assert (exists w4, (if ok then f_updateResults F w3 else Some w3) = Some w4 /\ f_pinv w4) as [w4 [E4 P4]].
  { destruct ok; [|exists w3; auto]. destruct P1 as [PI L]. destruct (pi_m _ _ PI p Ep1) as [Np [_ [_ [Zc _]]]].
    pose proof (SOL _ _ _ _ _ Es) as Sr. unfold opt in Zc. cbn [dressw reps ctl wps] in Zc, Np. rewrite Zc in Sr.
    rewrite dress_nu in Np. destruct (L p Np) as [SD [FR CC]]. destruct (f_from_inv F _ FR) as [W X].
    assert (X1 : xDim (wps w1 p) = xDim D) by apply SD. assert (X2 : fullUDim (wps w1 p) = fullUDim D) by apply SD.
    unfold f_updateResults, initialState. change (m_ps (ctl w3)) with (m_ps (ctl w1)). rewrite Ep1. cbv zeta.
    change (m_is (ctl w3)) with (m_is (ctl w1)). change (wps w3 p) with (wps w1 p). change (m_sol (ctl w3)) with r.
    destruct (m_is (ctl w1)) as [s|].
    - rewrite tail_ok by lia. cbn [obind]. unfold seg. rewrite (proj2 (Nat.leb_le (0 + xDim (wps w1 p)) (vsize r))) by lia. cbn [obind].
      match goal with |- context [f_preview F ?a ?b ?c] => assert (exists x, f_preview F a b c = Some x) as [x Ex] end.
      { unfold f_preview. cbn [vsize]. rewrite (wf_Phc _ W), (wf_Psc _ W), (wf_Phr _ W), (wf_Psr _ W), (wf_xi _ W), !Nat.eqb_refl. eexists. reflexivity. }
      rewrite Ex. cbn [obind]. eexists. split; [reflexivity|]. apply f_pinv_ctl; [exact P3|reflexivity..].
    - destruct (f_preview_some (wps w1 p) r W X) as [x Ex]; [congruence|].
      rewrite Ex. cbn [obind]. eexists. split; [reflexivity|]. apply f_pinv_ctl; [exact P3|reflexivity..]. }
  rewrite E4. cbn [obind]. do 2 eexists. split; [reflexivity|]. apply f_pinv_ctl; [exact P4|reflexivity..].
Qed.

(** ** One call, all calls *)
Lemma f_step_ok w o : f_pinv w -> legal n m N w o -> honest_op w o ->
  match f_step F reg w o with Ok w' | Throw _ w' => f_pinv w' | UB => False end.
Proof using Ac SF.
  intros P Lg Ho.
  assert (PL : plain_op o \/ (exists p po, o = OPs p po) \/ exists e, o = OSolve e) by (destruct o; cbn [plain_op]; eauto).
  destruct PL as [PO|[[p [po ->]]|[e ->]]].
  - replace (f_step F reg w o) with (step w o) by (destruct o; reflexivity || contradiction PO).
    pose proof (f_plain_ok w o PO P Lg) as H. destruct (step w o); tauto.
  - cbn [f_step]. destruct (f_ps_ok w p po P Lg Ho) as [s' [S [Ls Ks]]].
    destruct S as [S|[e S]]; rewrite S; cbn [out_map]; apply f_pinv_ps; assumption.
  - cbn [f_step legal] in *.
    destruct (f_solve_ok e w P) as [b [w' [E P']]]; [intro; apply Lg; assumption|intros s Hs; apply Lg; exact Hs|exact (proj1 (proj2 (proj2 Lg)))|apply Lg|]. rewrite E. exact P'.
Qed.
Lemma f_pinv_world0 : f_pinv world0.
Proof using.
  pose proof (world0_pinv D) as P. split; [|intros p Hp; cbn in Hp; lia].
  apply (pinv_reps world0 (wps world0)); [exact P| |].
  - intros p Hp. rewrite dress_nu in Hp. cbn in Hp. lia.
  - intro p. apply dress_nu.
Qed.
End Keeps.
