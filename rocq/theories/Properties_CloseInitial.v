(** Properties_CloseInitial.v -- C75: the control that InitialStateLMPC computes in floating point is close to the best one from the
    initial state it has chosen. *)
From Coq Require Import Qcabs.
From Verif Require Import Base Eigen Spec Preview SpecApi PreviewProofs AutoSpan AutoSpanProofs Constraints ConstraintProofs
  SpecConstraints ConstraintMeaning Checkers Costs SpecCosts CostProofs CostMeaning Properties_Costs Controller Registry SpecController Assembly
  Results SpecProtocol Protocol Properties_Protocol SpecEndToEnd SpanData Properties_Registry EndToEnd EndToEndQP EndToEndRows EndToEndMain
  Determined StateExt ExactSolver Properties_EndToEnd InitialState SpecMeaning Meaning.
From Verif Require Import Floats SpecFloats FloatProofs FloatPreview FloatConstraints FloatRows Binary64 Properties_Floats
  FloatCosts SpecFloatCosts FloatCostProofs FloatCostRun Properties_FloatCosts
  FloatController SpecFloatRun FloatProtocol FloatTrace FloatMeaning FloatValue FloatSolve Properties_FloatRun SpecFloatInitial FloatInitial
  Properties_FloatInitial SpecClose Close.
Open Scope nat_scope.
Open Scope list_scope.

(** When V is the best control, from the initial state that was chosen, of a set closed under middles that contains the computed control,
    and V meets the constraints with the margin of their rounding errors, then the computed control is close to V. *)
Theorem C75_close_to_best : forall u F reg n m N h w p s e tol w',
  (* as in C72 *)
  accurate u F -> within u q1em6 reg -> sizes_fit n m N ->
  f_follows_protocol F reg n m N world0 h -> f_callable F reg world0 h -> f_honest F reg world0 h ->
  f_run F reg world0 h = Some w -> m_ps (ctl w) = Some p -> m_is (ctl w) = Some s ->
  (forall i, In i (spC (ctl w)) -> even_bounds h i) ->
  fresh_steps (wps w p) h (spCost (ctl w)) -> (spB (ctl w) <> [] \/ f_stale F reg world0 false h = false) ->
  close_solver tol e -> f_solve F reg e w = Some (true, w') ->
  nonneg_weights h ->
  let ps := wps w' p in
  let k := fullUDim ps in
  let U := vget (m_ctrl (ctl w')) in
  exists x, initialState w' = Some x /\ vsize x = xDim ps /\
  let cost := fun V => (total_cost_from ps h (spCost (ctl w)) (vget x) V + regularization k V)%Qc in
  let size := fun V => (total_size_from ps h (spCost (ctl w)) (vget x) V + regularization k V)%Qc in
  within_bounds (xDim ps) (vget (isx0lb s)) (vget (isx0ub s)) (vget x) ->
  forall (C : (nat -> Qc) -> Prop) V, middles C ->
    C U -> C V -> all_met_from u (- (1)) 0 ps h (spC (ctl w)) (vget x) V -> (spB (ctl w) = [] -> representable k V) ->
    (forall A, C A -> (cost V <= cost A)%Qc) ->
    (q1em6 * distance2 k U V <= (1 + 1 + 1 + 1) * (tol + growth u (total_roundings ps h (spCost (ctl w))) * (size U + size V)))%Qc.
Proof.
  intros u F reg n m N h w p s e tol w' Ac Wr SF FP CA HO RE Ep Is NS FS St CS So NW. cbv zeta.
  destruct (C72_rounded_initial_state u F reg n m N h w p s e tol w' Ac Wr SF FP CA HO RE Ep Is NS FS St CS So)
    as [x [Ex [Sx [_ [_ [_ [_ [_ [_ [_ [_ OU]]]]]]]]]]]. cbv zeta in OU.
  destruct (gs_wf u F Ac reg n m N SF h w p s e true w' FP CA HO RE Ep Is So) as [W _].
  exists x. split; [exact Ex|]. split; [exact Sx|]. intros WB C V MC CU CV MV RV OV.
  set (ps := wps w' p) in *. set (U := vget (m_ctrl (ctl w'))) in *.
  apply (value_close ps h (spCost (ctl w)) (vget x)).
  - exact W.
  - intros i d Hi Ed r Hr. apply weights_of_nonneg; [exact NW|].
    destruct (gs_cost_data u F Ac reg n m N SF h w p s e true w' FP CA HO RE Ep Is So i Hi) as [d' [Ed' [Al [Vw [_ [CF Sw]]]]]].
    assert (X : d' = d) by congruence. rewrite X in Al.
    rewrite <- (proj1 Vw), Sw. unfold cost_rows.
    destruct (k_given (wcost w i)), d; cbn [cost_alike cost_fits cost_lines] in *; try tauto;
      repeat match goal with H : _ /\ _ |- _ => destruct H end; repeat match goal with H : meq _ _ |- _ => destruct H as [? [? _]] end; lia.
  - rewrite Qcplus_assoc. exact (OU WB V MV RV).
  - apply OV. apply MC; [exact CU|exact CV].
Qed.

(** In particular, with a solver that is exact and constraints on the controls alone, the best control itself; the initial state is within
    its bounds. *)
Theorem C75_control_constraints : forall u F reg n m N h w p s e w',
  accurate u F -> within u q1em6 reg -> sizes_fit n m N ->
  f_follows_protocol F reg n m N world0 h -> f_callable F reg world0 h -> f_honest F reg world0 h ->
  f_run F reg world0 h = Some w -> m_ps (ctl w) = Some p -> m_is (ctl w) = Some s ->
  on_controls h (spC (ctl w)) ->
  fresh_steps (wps w p) h (spCost (ctl w)) -> (spB (ctl w) <> [] \/ f_stale F reg world0 false h = false) ->
  exact_solver e -> f_solve F reg e w = Some (true, w') ->
  nonneg_weights h ->
  let ps := wps w' p in
  let k := fullUDim ps in
  let U := vget (m_ctrl (ctl w')) in
  exists x, initialState w' = Some x /\ vsize x = xDim ps /\
  let cost := fun V => (total_cost_from ps h (spCost (ctl w)) (vget x) V + regularization k V)%Qc in
  let size := fun V => (total_size_from ps h (spCost (ctl w)) (vget x) V + regularization k V)%Qc in
  within_bounds (xDim ps) (vget (isx0lb s)) (vget (isx0ub s)) (vget x) /\
  all_imposed_from ps h (spC (ctl w)) (vget x) U /\
  forall V, all_imposed_from ps h (spC (ctl w)) (vget x) V -> (spB (ctl w) = [] -> representable k V) ->
    (forall A, all_imposed_from ps h (spC (ctl w)) (vget x) A -> (cost V <= cost A)%Qc) ->
    (q1em6 * distance2 k U V <= (1 + 1 + 1 + 1) * (growth u (total_roundings ps h (spCost (ctl w))) * (size U + size V)))%Qc.
Proof.
  intros u F reg n m N h w p s e w' Ac Wr SF FP CA HO RE Ep Is OC FS St CS So NW. cbv zeta.
  assert (EB : forall i, In i (spC (ctl w)) -> even_bounds h i).
  { intros i Hi lo up Hn. exfalso. assert (exists d, con_data_of h i = Some d /\ exists a b, d = DTrajB a b) as [d [Ed [a [b Edd]]]].
    { unfold con_data_of. rewrite Hn. destruct (existsb (spans_con i) h); cbn [spanned_con]; [|eauto].
      destruct (stretch_v _ lo); [|eauto]. destruct (stretch_v _ up); eauto. }
    specialize (OC i d Hi Ed). rewrite Edd in OC. exact OC. }
  assert (CS0 : close_solver 0 e) by (apply C71_exact_solver; [apply Qcle_refl|exact CS]).
  assert (T : forall t x A, all_met_from u t 0 (wps w' p) h (spC (ctl w)) x A <-> all_imposed_from (wps w' p) h (spC (ctl w)) x A).
  { intros t x A. split; intros H i d Hi Ed; apply (ctrl_row_imposes _ d _ _ t u (OC i d Hi Ed)), (H i d Hi Ed). }
  destruct (C72_rounded_initial_state u F reg n m N h w p s e 0%Qc w' Ac Wr SF FP CA HO RE Ep Is EB FS St CS0 So)
    as [x [Ex [Sx [_ [_ [_ [_ [WX [_ [_ [MU _]]]]]]]]]]].
  destruct (C75_close_to_best u F reg n m N h w p s e 0%Qc w' Ac Wr SF FP CA HO RE Ep Is EB FS St CS0 So NW) as [x' [Ex' [_ CB]]].
  assert (X : x' = x) by congruence. rewrite X in CB. clear X Ex' x'.
  assert (WB : within_bounds (xDim (wps w' p)) (vget (isx0lb s)) (vget (isx0ub s)) (vget x)).
  { intros i Hi. destruct (WX i Hi) as [M1 M2]. split; [apply meets_opp; exact M1|apply meets_0 in M2; exact M2]. }
  pose proof (proj1 (T 1%Qc (vget x) _) MU) as AU.
  exists x. split; [exact Ex|]. split; [exact Sx|]. split; [exact WB|]. split; [exact AU|]. intros V AV RV OV. cbv zeta in CB.
  specialize (CB WB (all_imposed_from (wps w' p) h (spC (ctl w)) (vget x)) V). rewrite Qcplus_0_l in CB. apply CB; clear CB.
  - intros A B HA HB i d Hi Ed. apply ctrl_imposes_mid; [exact (OC i d Hi Ed)|exact (HA i d Hi Ed)|exact (HB i d Hi Ed)].
  - exact AU.
  - exact AV.
  - apply T. exact AV.
  - exact RV.
  - exact OV.
Qed.

(** ** An example: the first solve of C72 without its constraint on the states; the lower bound of the initial state and the upper bound of
    the first control are active *)
Definition cert75 (q : qp) : cert :=
  let c := cert72 q in
  match c with Cert a b _ g l => Cert a b [] g l end.
Definition env75 : senv :=
  SEnv j0 (fun m => m) (fun k _ _ q =>
    if Nat.eqb k (vsize (qc q)) && kkt_check q (cert75 q) then (true, Vec k (nthq (ku (cert75 q)))) else (false, vconst k 0%Qc))
    (qz 0) (qz 1) (qz 3) (qz 4).
Lemma env75_exact : exact_solver env75.
Proof.
  intros k a b q r. unfold env75. cbn [s_qp]. destruct (Nat.eqb_spec k (vsize (qc q))) as [->|]; [|discriminate].
  destruct (kkt_check q (cert75 q)) eqn:E; [|discriminate]. cbn [andb]. intros H _.
  assert (Er : r = Vec (vsize (qc q)) (nthq (ku (cert75 q)))) by congruence. rewrite Er. split; [reflexivity|]. exact (kkt_optimal q (cert75 q) E).
Qed.
Lemma env75_sane : sane env75.
Proof.
  split; [intros M H; cbn; auto|]. intros k a b q r. unfold env75. cbn [s_qp].
  destruct (Nat.eqb k (vsize (qc q)) && kkt_check q (cert75 q)); intro H; [|discriminate].
  assert (Er : r = Vec k (nthq (ku (cert75 q)))) by congruence. rewrite Er. reflexivity.
Qed.
Definition ex75 : list op :=
  [OPs 0 (PSystem fA fB fd (vlit [3]%Z) 2); OConstruct j0 (CISps 0) qempty;
   OResetX0Bounds (elit [fin 1]) (elit [fin 3]); OResetX0Cost (mlit [[1000]]%Z) (vlit [0]%Z);
   ONewCon (DCtrlB (elit [fin (-3)]) (elit [fin 1; fin 3])); OSpanCon j0 0;
   ONewCost (DTrajC (mlit [[1; 0; 0]; [0; 1; 0]; [0; 0; 1]]%Z) (vlit [4]%Z)); ONewCost (DTargetC fA (vlit [2]%Z)); ONewCost (DCtrlC fB (vlit [0]%Z));
   OWeight 1 tenth; OWeight 2 (qz 30); OSpanCost j0 0;
   OAddCon j0 0; OAddCost j0 0; OAddCost j0 1; OAddCost j0 2].
Definition check75 :=
  match f_run arith64 reg64 world0 ex75 with
  | Some w =>
      match m_ps (ctl w), m_is (ctl w), f_solve arith64 reg64 env75 w with
      | Some p, Some s, Some (true, w') =>
        match initialState w' with
        | Some xv =>
          let ps := wps w' p in let U := vget (m_ctrl (ctl w')) in let x := vget xv in
          same_list (spCost (ctl w)) costs71 && same_list (spC (ctl w)) [0%nat] && same_list (spB (ctl w)) [0%nat] &&
          (* the bound of the theorem is about (1/1000)^2 for a control of this size *)
          qlt (growth u64 (total_roundings ps ex75 costs71) * (total_size_from ps ex75 costs71 x U + regularization 2 U))
              (Q2Qc (1 # 8000000000000)) &&
          qeqb (x 0%nat) 1 && qeqb (vget (x0 ps) 0%nat) (qz 3) && tightb (vget (isx0lb s) 0) 1 && tightb (vget (isx0ub s) 0) (qz 3) &&
          qeqb (U 0%nat) 1 && qlt 0 (U 1%nat)
        | None => false end
      | _, _, _ => false
      end
  | None => false
  end%Qc.
Example C75_example :
  sizes_fit 1 1 2 /\ nonneg_weights ex75 /\ f_follows_protocol arith64 reg64 1 1 2 world0 ex75 /\ f_callable arith64 reg64 world0 ex75 /\
  f_honest arith64 reg64 world0 ex75 /\ exact_solver env75 /\ on_controls ex75 [0] /\
  (forall ps l, xDim ps = 1 -> fresh_steps ps ex75 l) /\ check75 = true.
Proof.
  split; [repeat split; lia|]. split.
  { split.
    - intros i x H. cbn in H. repeat (destruct H as [H|H]; [try discriminate H|]); try contradiction; injection H as _ <-; apply qleb_ok; vm_compute; reflexivity.
    - intros i v H. cbn in H. repeat (destruct H as [H|H]; [try discriminate H|]); contradiction. }
  split.
  { apply f_followsb_ok; [|vm_compute; reflexivity]. intros e H. cbn in H.
    repeat (destruct H as [H|H]; [try discriminate H; try (injection H as <-; exact env75_sane)|]). contradiction. }
  split; [apply f_callableb_ok; vm_compute; reflexivity|]. split; [apply f_honestb_ok; vm_compute; reflexivity|].
  split; [exact env75_exact|].
  split; [intros i d [<-|[]] H; cbn in H; injection H as <-; exact I|].
  split; [|vm_compute; reflexivity].
  intros ps l X [|[|[|i]]] d _ H Pd; cbn in H; try (injection H as <-; cbn in Pd; rewrite ?X in Pd; cbn in Pd; discriminate Pd); try discriminate H.
  destruct i; discriminate H.
Qed.
Print Assumptions C75_close_to_best.
Print Assumptions C75_control_constraints.
Print Assumptions C75_example.
