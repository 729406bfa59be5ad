(** Properties_Close.v -- C73: a control computed in floating point is close to the best one. *)
From Coq Require Import Qcabs.
From Verif Require Import Base Eigen Spec Preview SpecApi PreviewProofs AutoSpan AutoSpanProofs Constraints ConstraintProofs
  SpecConstraints ConstraintMeaning Checkers Costs SpecCosts CostProofs CostMeaning Properties_Costs Controller Registry SpecController Assembly
  Results SpecProtocol Protocol Properties_Protocol SpecEndToEnd SpanData Properties_Registry EndToEnd EndToEndQP EndToEndRows EndToEndMain
  Determined StateExt ExactSolver Properties_EndToEnd SpecMeaning Meaning.
From Verif Require Import Floats SpecFloats FloatProofs FloatPreview FloatConstraints FloatRows Binary64 Properties_Floats
  FloatCosts SpecFloatCosts FloatCostProofs FloatCostRun Properties_FloatCosts
  FloatController SpecFloatRun FloatProtocol FloatTrace FloatMeaning FloatValue FloatSolve Properties_FloatRun SpecFloatInitial FloatInitial
  Properties_FloatInitial SpecClose Close.
Open Scope nat_scope.
Open Scope list_scope.

(** When V is the best control of a set closed under middles that contains the computed control, and V meets the constraints with the
    margin of their rounding errors, then the computed control is close to V. *)
Theorem C73_close_to_best : forall u F reg n m N h w p e tol w',
  (* as in C71 *)
  accurate u F -> within u q1em6 reg -> sizes_fit n m N ->
  f_follows_protocol F reg n m N world0 h -> f_callable F reg world0 h -> f_honest F reg world0 h ->
  f_run F reg world0 h = Some w -> m_ps (ctl w) = Some p -> m_is (ctl w) = None ->
  (forall i, In i (spC (ctl w)) -> even_bounds h i) ->
  fresh_steps (wps w p) h (spCost (ctl w)) -> (spB (ctl w) <> [] \/ f_stale F reg world0 false h = false) ->
  close_solver tol e -> f_solve F reg e w = Some (true, w') ->
  nonneg_weights h ->
  let ps := wps w' p in
  let k := fullUDim ps in
  let U := vget (m_ctrl (ctl w')) in
  let cost := fun V => (total_cost ps h (spCost (ctl w)) V + regularization k V)%Qc in
  let size := fun V => (total_size ps h (spCost (ctl w)) V + regularization k V)%Qc in
  forall (C : (nat -> Qc) -> Prop) V, middles C ->
    C U -> C V -> all_met u (- (1)) 0 ps h (spC (ctl w)) V -> (spB (ctl w) = [] -> representable k V) ->
    (forall A, C A -> (cost V <= cost A)%Qc) ->
    (q1em6 * distance2 k U V <= (1 + 1 + 1 + 1) * (tol + growth u (total_roundings ps h (spCost (ctl w))) * (size U + size V)))%Qc.
Proof.
  intros u F reg n m N h w p e tol w' Ac Wr SF FP CA HO RE Ep NI NS FS St CS So NW. cbv zeta. intros C V MC CU CV MV RV OV.
  destruct (C71_rounded_end_to_end u F reg n m N h w p e tol w' Ac Wr SF FP CA HO RE Ep NI NS FS St CS So) as [_ [_ [_ [_ [_ [_ [_ [MU OU]]]]]]]].
  destruct (fs_wf u F Ac reg n m N SF h w p e true w' FP CA HO RE Ep NI So) as [W X0].
  set (ps := wps w' p) in *. set (U := vget (m_ctrl (ctl w'))) in *.
  apply (value_close ps h (spCost (ctl w)) (vget (x0 ps))).
  - exact W.
  - intros i d Hi Ed r Hr. apply weights_of_nonneg; [exact NW|].
    destruct (fs_cost_data u F Ac reg n m N SF h w p e true w' FP CA HO RE Ep NI So i Hi) as [d' [Ed' [Al [Vw [_ [CF Sw]]]]]]. rewrite Ed in Ed'. injection Ed' as <-.
    rewrite <- (proj1 Vw), Sw. unfold cost_rows.
    destruct (k_given (wcost w i)), d; cbn [cost_alike cost_fits cost_lines] in *; try tauto;
      repeat match goal with H : _ /\ _ |- _ => destruct H end; repeat match goal with H : meq _ _ |- _ => destruct H as [? [? _]] end; lia.
  - rewrite Qcplus_assoc. exact (OU V MV RV).
  - apply OV. apply MC; [exact CU|exact CV].
Qed.

(** In particular, with a solver that is exact and constraints on the controls alone, the best control itself. *)
Theorem C73_control_constraints : forall u F reg n m N h w p e w',
  accurate u F -> within u q1em6 reg -> sizes_fit n m N ->
  f_follows_protocol F reg n m N world0 h -> f_callable F reg world0 h -> f_honest F reg world0 h ->
  f_run F reg world0 h = Some w -> m_ps (ctl w) = Some p -> m_is (ctl w) = None ->
  on_controls h (spC (ctl w)) ->
  fresh_steps (wps w p) h (spCost (ctl w)) -> (spB (ctl w) <> [] \/ f_stale F reg world0 false h = false) ->
  exact_solver e -> f_solve F reg e w = Some (true, w') ->
  nonneg_weights h ->
  let ps := wps w' p in
  let k := fullUDim ps in
  let U := vget (m_ctrl (ctl w')) in
  let cost := fun V => (total_cost ps h (spCost (ctl w)) V + regularization k V)%Qc in
  let size := fun V => (total_size ps h (spCost (ctl w)) V + regularization k V)%Qc in
  (* the computed control satisfies the constraints exactly *)
  all_imposed ps h (spC (ctl w)) U /\
  (* and is close to the best one *)
  forall V, all_imposed ps h (spC (ctl w)) V -> (spB (ctl w) = [] -> representable k V) ->
    (forall A, all_imposed ps h (spC (ctl w)) A -> (cost V <= cost A)%Qc) ->
    (q1em6 * distance2 k U V <= (1 + 1 + 1 + 1) * (growth u (total_roundings ps h (spCost (ctl w))) * (size U + size V)))%Qc.
Proof.
  intros u F reg n m N h w p e w' Ac Wr SF FP CA HO RE Ep NI OC FS St CS So NW. cbv zeta.
  assert (EB : forall i, In i (spC (ctl w)) -> even_bounds h i).
  { intros i Hi lo up Hn. exfalso. assert (exists d, con_data_of h i = Some d /\ exists a b, d = DTrajB a b) as [d [Ed [a [b Edd]]]].
    { unfold con_data_of. rewrite Hn. destruct (existsb (spans_con i) h); cbn [spanned_con]; [|eauto].
      destruct (stretch_v _ lo); [|eauto]. destruct (stretch_v _ up); eauto. }
    specialize (OC i d Hi Ed). rewrite Edd in OC. exact OC. }
  assert (CS0 : close_solver 0 e) by (apply C71_exact_solver; [apply Qcle_refl|exact CS]).
  assert (T : forall s A, all_met u s 0 (wps w' p) h (spC (ctl w)) A <-> all_imposed (wps w' p) h (spC (ctl w)) A).
  { intros s A. split; intros H i d Hi Ed; apply (ctrl_row_imposes _ d _ _ s u (OC i d Hi Ed)), (H i d Hi Ed). }
  assert (AU : all_imposed (wps w' p) h (spC (ctl w)) (vget (m_ctrl (ctl w')))).
  { apply (T 1%Qc).
    exact (proj1 (proj2 (proj2 (proj2 (proj2 (proj2 (proj2 (proj2 (C71_rounded_end_to_end u F reg n m N h w p e 0%Qc w' Ac Wr SF FP CA HO RE Ep NI EB FS St CS0 So))))))))). }
  split; [exact AU|].
  - intros V AV RV OV.
    pose proof (C73_close_to_best u F reg n m N h w p e 0%Qc w' Ac Wr SF FP CA HO RE Ep NI EB FS St CS0 So NW
      (all_imposed (wps w' p) h (spC (ctl w))) V) as H. cbv zeta in H. rewrite Qcplus_0_l in H. apply H; clear H.
    + intros A B HA HB i d Hi Ed. apply ctrl_imposes_mid; [exact (OC i d Hi Ed)|exact (HA i d Hi Ed)|exact (HB i d Hi Ed)].
    + exact AU.
    + exact AV.
    + apply T. exact AV.
    + exact RV.
    + exact OV.
Qed.

(** So the controls computed by the same calls with and without rounding errors are close. *)
Theorem C73_rounded_vs_exact : forall u F reg n m N h w v p e e' w' v',
  accurate u F -> within u q1em6 reg -> sizes_fit n m N -> nonneg_weights h ->
  (* a history of LMPC computed with rounding errors ... *)
  f_follows_protocol F reg n m N world0 h -> f_callable F reg world0 h -> f_honest F reg world0 h ->
  f_run F reg world0 h = Some w -> m_ps (ctl w) = Some p -> m_is (ctl w) = None ->
  exact_solver e -> f_solve F reg e w = Some (true, w') ->
  (* ... and without *)
  follows_protocol n m N world0 h -> callable world0 h -> honest world0 h -> reached h v -> m_ps (ctl v) = Some p -> m_is (ctl v) = None ->
  exact_solver e' -> solve e' v = Some (true, v') ->
  (* the same system, constraints on the controls alone, costs *)
  ps_alike (wps w p) (wps v p) -> spC (ctl v) = spC (ctl w) -> spB (ctl v) = spB (ctl w) -> spCost (ctl v) = spCost (ctl w) ->
  on_controls h (spC (ctl w)) ->
  fresh_steps (wps w p) h (spCost (ctl w)) ->
  (spB (ctl w) <> [] \/ (f_stale F reg world0 false h = false /\ stale world0 false h = false)) ->
  let ps := wps w' p in
  let k := fullUDim ps in
  let U := vget (m_ctrl (ctl w')) in
  let V := vget (m_ctrl (ctl v')) in
  let size := fun V => (total_size ps h (spCost (ctl w)) V + regularization k V)%Qc in
  (q1em6 * distance2 k U V <= (1 + 1 + 1 + 1) * (growth u (total_roundings ps h (spCost (ctl w))) * (size U + size V)))%Qc.
Proof.
  intros u F reg n m N h w v p e e' w' v' Ac Wr SF NW FP CA HO RE Ep NI ES So FP' CA' HO' RE' Ep' NI' ES' So' AL EC EB EK OC FS St. cbv zeta.
  assert (NS : forall i, In i (spC (ctl w)) -> even_bounds h i).
  { intros i Hi lo up Hn. exfalso. assert (exists d, con_data_of h i = Some d /\ exists a b, d = DTrajB a b) as [d [Ed [a [b Edd]]]].
    { unfold con_data_of. rewrite Hn. destruct (existsb (spans_con i) h); cbn [spanned_con]; [|eauto].
      destruct (stretch_v _ lo); [|eauto]. destruct (stretch_v _ up); eauto. }
    specialize (OC i d Hi Ed). rewrite Edd in OC. exact OC. }
  assert (CS0 : close_solver 0 e) by (apply C71_exact_solver; [apply Qcle_refl|exact ES]).
  destruct (C71_rounded_end_to_end u F reg n m N h w p e 0%Qc w' Ac Wr SF FP CA HO RE Ep NI NS FS
    (match St with or_introl a => or_introl a | or_intror (conj a _) => or_intror a end) CS0 So) as [D1 [D2 [D3 [D4 [D5 [D6 [_ [MU _]]]]]]]].
  assert (FSv : fresh_steps (wps v p) h (spCost (ctl v))).
  { rewrite EK. eapply fresh_steps_dims; [|exact FS]. apply same_dims_sym. apply AL. }
  destruct (C36_end_to_end_partial n m N h v p e' v' SF FP' CA' HO' RE' Ep' NI' ltac:(rewrite EC; exact NS) FSv
    ltac:(rewrite EB; destruct St as [S1|[_ S2]]; [left; exact S1|right; exact S2]) ES' So') as [G1 [G2 [G3 [G4 [G5 [_ [[G6 G7] [G8 _]]]]]]]].
  assert (AL' : ps_alike (wps w' p) (wps v' p)).
  { destruct AL as [L1 [L2 [L3 [L4 L5]]]]. split; [|repeat split; congruence].
    unfold same_dims in *. intuition congruence. }
  rewrite EC in *. rewrite EK in *. rewrite EB in *.
  assert (KF : fullUDim (wps v' p) = fullUDim (wps w' p)) by (symmetry; apply AL').
  rewrite KF in *.
  pose proof (C73_close_to_best u F reg n m N h w p e 0%Qc w' Ac Wr SF FP CA HO RE Ep NI NS FS
    (match St with or_introl a => or_introl a | or_intror (conj a _) => or_intror a end) CS0 So NW
    (fun A => all_imposed (wps w' p) h (spC (ctl w)) A /\ (spB (ctl w) = [] -> representable (fullUDim (wps w' p)) A))
    (vget (m_ctrl (ctl v')))) as H. cbv zeta in H. rewrite Qcplus_0_l in H.
  apply H; clear H.
  - intros A B [HA RA] [HB RB]. split.
    + intros i d Hi Ed. apply ctrl_imposes_mid; [exact (OC i d Hi Ed)|exact (HA i d Hi Ed)|exact (HB i d Hi Ed)].
    + intro Es. apply (Convex.within_mid _ _ _ A B (RA Es) (RB Es)).
  - split.
    + intros i d Hi Ed. apply (ctrl_row_imposes _ d _ _ 1%Qc u (OC i d Hi Ed)), (MU i d Hi Ed).
    + intro Es. destruct St as [St|[St _]]; [congruence|].
      apply (fs_representable u F reg n m N h w p e true w' Ac SF FP CA HO RE Ep NI So NS Es St).
      pose proof (fs_asm u F Ac reg n m N SF h w p e true w' FP CA HO RE Ep NI So) as A.
      pose proof (fs_well_sized u F Ac reg n m N SF h w p e true w' FP CA HO RE Ep NI So) as WS.
      destruct (fa_call _ _ _ _ _ _ _ _ _ _ A) as [r [Er Hr]]. destruct (Hr eq_refl) as [_ Ec]. rewrite Ec.
      destruct (ES _ _ _ _ _ Er WS) as [_ [Fe _]]. exact Fe.
  - split; [apply (alike_imposed _ _ _ _ _ AL'); exact G6|exact G7].
  - intros i d Hi Ed. apply (ctrl_row_imposes _ d _ _ (- (1))%Qc u (OC i d Hi Ed)).
    apply (alike_imposed _ _ _ _ _ AL') in G6. exact (G6 i d Hi Ed).
  - exact G7.
  - intros A [HA RA]. rewrite !(alike_total _ _ _ _ _ AL'). apply G8. split; [apply (alike_imposed _ _ _ _ _ AL'); exact HA|exact RA].
Qed.

(** ** An example: the inexact system of C71 in double precision against exact arithmetic, a second solve from another initial state;
    the upper bound of the first control is active *)
Definition ex73 : list op :=
  [OPs 0 (PSystem fA fB fd (vlit [3]%Z) 2); OConstruct j0 (CLMPCps 0) qempty;
   ONewCon (DCtrlB (elit [fin (-3)]) (elit [fin 1; fin 3])); OSpanCon j0 0;
   ONewCost (DTrajC (mlit [[1; 0; 0]; [0; 1; 0]; [0; 0; 1]]%Z) (vlit [4]%Z)); ONewCost (DTargetC fA (vlit [2]%Z)); ONewCost (DCtrlC fB (vlit [0]%Z));
   OWeight 1 tenth; OWeight 2 (qz 30); OSpanCost j0 0;
   OAddCon j0 0; OAddCost j0 0; OAddCost j0 1; OAddCost j0 2; OSolve env71; OPs 0 (PXInit (vlit [2]%Z))].
Definition check73 :=
  match f_run arith64 reg64 world0 ex73, run world0 ex73 with
  | Some w, Some v =>
      match f_solve arith64 reg64 env71 w, solve env71 v with
      | Some (true, w'), Some (true, v') =>
          let ps := wps w' 0 in let U := vget (m_ctrl (ctl w')) in let V := vget (m_ctrl (ctl v')) in
          let size := fun V => total_size ps ex73 costs71 V + regularization 2 V in
          (* they differ, and are proved to be within 1/1000 *)
          qlt 0 (distance2 2 U V) &&
          qlt ((1 + 1 + 1 + 1) * (growth u64 (total_roundings ps ex73 costs71) * (size U + size V))) (q1em6 * Q2Qc (1 # 1000000)) &&
          qeqb (U 0%nat) 1 && qeqb (V 0%nat) 1 && qlt 0 (U 1%nat)
      | _, _ => false
      end
  | _, _ => false
  end%Qc.
Definition same_start (w v : world) : Prop :=
  m_ps (ctl w) = Some 0 /\ m_ps (ctl v) = Some 0 /\ m_is (ctl w) = None /\ m_is (ctl v) = None /\
  ps_alike (wps w 0) (wps v 0) /\ spC (ctl w) = [0] /\ spC (ctl v) = [0] /\ spB (ctl w) = [0] /\ spB (ctl v) = [0] /\
  spCost (ctl w) = costs71 /\ spCost (ctl v) = costs71 /\ xDim (wps w 0) = 1.
Example C73_example :
  sizes_fit 1 1 2 /\ nonneg_weights ex73 /\
  f_follows_protocol arith64 reg64 1 1 2 world0 ex73 /\ f_callable arith64 reg64 world0 ex73 /\ f_honest arith64 reg64 world0 ex73 /\
  follows_protocol 1 1 2 world0 ex73 /\ callable world0 ex73 /\ honest world0 ex73 /\ exact_solver env71 /\
  match f_run arith64 reg64 world0 ex73, run world0 ex73 return Prop with Some w, Some v => same_start w v | _, _ => False end /\
  on_controls ex73 [0] /\ (forall ps l, xDim ps = 1 -> fresh_steps ps ex73 l) /\ check73 = true.
Proof.
  split; [repeat split; lia|]. split.
  { split.
    - intros i x H. cbn in H. repeat (destruct H as [H|H]; [try discriminate H|]); try contradiction; injection H as _ <-; apply qleb_ok; vm_compute; reflexivity.
    - intros i v H. cbn in H. repeat (destruct H as [H|H]; [try discriminate H|]); contradiction. }
  split.
  { apply f_followsb_ok; [|vm_compute; reflexivity]. intros e H. cbn in H.
    repeat (destruct H as [H|H]; [try discriminate H; try (injection H as <-; exact env71_sane)|]). contradiction. }
  split; [apply f_callableb_ok; vm_compute; reflexivity|]. split; [apply f_honestb_ok; vm_compute; reflexivity|].
  split.
  { apply followsb_ok; [|vm_compute; reflexivity]. intros e H. cbn in H.
    repeat (destruct H as [H|H]; [try discriminate H; try (injection H as <-; exact env71_sane)|]). contradiction. }
  split; [apply callableb_ok; vm_compute; reflexivity|]. split; [apply honestb_ok; vm_compute; reflexivity|].
  split; [exact env71_exact|].
  split; [vm_compute; repeat split|].
  split; [intros i d [<-|[]] H; cbn in H; injection H as <-; exact I|].
  split; [|vm_compute; reflexivity].
  intros ps l X [|[|[|i]]] d _ H Pd; cbn in H; try (injection H as <-; cbn in Pd; rewrite ?X in Pd; cbn in Pd; discriminate Pd); try discriminate H.
  destruct i; discriminate H.
Qed.
Print Assumptions C73_close_to_best.
Print Assumptions C73_control_constraints.
Print Assumptions C73_rounded_vs_exact.
Print Assumptions C73_example.
