(** Properties_FloatInitial.v -- C72: what a controller that rounds and chooses its initial state answers, at the end of any history. *)
From Coq Require Import Qcabs.
From Verif Require Import Base Eigen Spec Preview SpecApi PreviewProofs AutoSpan AutoSpanProofs Constraints ConstraintProofs
  SpecConstraints ConstraintMeaning Checkers Costs SpecCosts CostProofs CostMeaning Properties_Costs Controller Registry SpecController Assembly
  Results SpecProtocol Protocol Properties_Protocol SpecEndToEnd SpanData Properties_Registry EndToEnd EndToEndQP EndToEndRows EndToEndMain
  ExactSolver Properties_EndToEnd InitialState Properties_InitialState.
From Verif Require Import Floats SpecFloats FloatProofs FloatPreview FloatConstraints FloatRows Binary64 Properties_Floats
  FloatCosts SpecFloatCosts FloatCostProofs FloatCostRun Properties_FloatCosts
  FloatController SpecFloatRun FloatProtocol FloatTrace FloatMeaning FloatValue FloatSolve Properties_FloatRun SpecFloatInitial FloatInitial.
Open Scope nat_scope.
Open Scope list_scope.

(** From the initial state it publishes: nearly within the bounds given for it, the trajectory nearly the system's from there under the
    published control, the constraints nearly satisfied, and the control nearly no more expensive than any that satisfies them with
    a margin, when the initial state is exactly within its bounds. *)
Theorem C72_rounded_initial_state : forall u F reg n m N h w p s e tol w',
  accurate u F -> within u q1em6 reg -> sizes_fit n m N ->
  f_follows_protocol F reg n m N world0 h -> f_callable F reg world0 h -> f_honest F reg world0 h ->
  f_run F reg world0 h = Some w -> m_ps (ctl w) = Some p -> m_is (ctl w) = Some s ->
  (* the registered trajectory bounds were given with the same size *)
  (forall i, In i (spC (ctl w)) -> even_bounds h i) ->
  (* per-step costs were not already solved with; no bounds of a removed constraint are left *)
  fresh_steps (wps w p) h (spCost (ctl w)) -> (spB (ctl w) <> [] \/ f_stale F reg world0 false h = false) ->
  close_solver tol e -> f_solve F reg e w = Some (true, w') ->
  let ps := wps w' p in
  let k := fullUDim ps in
  let U := vget (m_ctrl (ctl w')) in
  exists x, initialState w' = Some x /\ vsize x = xDim ps /\
  let cost := fun V => (total_cost_from ps h (spCost (ctl w)) (vget x) V + regularization k V)%Qc in
  let size := fun V => (total_size_from ps h (spCost (ctl w)) (vget x) V + regularization k V)%Qc in
  (* the system is the user's *)
  psA ps = psA (wps w p) /\ psB ps = psB (wps w p) /\ psd ps = psd (wps w p) /\ same_dims ps (wps w p) /\
  (* the initial state is nearly within its bounds; trajectory() is nearly the one from there under control() *)
  close_start tol (xDim ps) (vget (isx0lb s)) (vget (isx0ub s)) (vget x) /\
  vsize (m_ctrl (ctl w')) = k /\ predicts u (nrUStep ps * (xDim ps + uDim ps + 1)) ps (vget x) U (m_traj (ctl w')) /\
  (* which nearly satisfies the constraints *)
  all_met_from u 1 tol ps h (spC (ctl w)) (vget x) U /\
  (* and nearly no control that satisfies them with a margin from there costs less *)
  (within_bounds (xDim ps) (vget (isx0lb s)) (vget (isx0ub s)) (vget x) ->
   forall V, all_met_from u (- (1)) 0 ps h (spC (ctl w)) (vget x) V -> (spB (ctl w) = [] -> representable k V) ->
    (cost U <= cost V + tol + growth u (total_roundings ps h (spCost (ctl w))) * (size U + size V))%Qc).
Proof.
  intros u F reg n m N h w p s e tol w' Ac Wr SF FP CA HO RE Ep Is NS FS St CS So. cbv zeta.
  pose proof (gs_asm u F Ac reg n m N SF h w p s e true w' FP CA HO RE Ep Is So) as A.
  destruct (gs_wf u F Ac reg n m N SF h w p s e true w' FP CA HO RE Ep Is So) as [W X0].
  pose proof (gs_well_sized u F Ac reg n m N SF h w p s e true w' FP CA HO RE Ep Is So) as WS.
  pose proof (ga_sum _ _ _ _ _ _ _ _ _ _ _ A) as GS. cbv zeta in GS. destruct GS as [Q0 [c0 [_ [_ [_ [_ [_ [_ [VC _]]]]]]]]].
  destruct (ga_call _ _ _ _ _ _ _ _ _ _ _ A) as [Ep' [Es Hr]]. destruct (Hr eq_refl) as [xi [Ex [Ect Pv]]].
  destruct (CS _ _ _ _ _ Es WS) as [VS [CF CO]]. rewrite VC in VS.
  assert (FS' : fresh_steps (wps w' p) h (spCost (ctl w))).
  { intros i d Hi Ed Pd. apply (FS i d Hi Ed). revert Pd. pose proof (ga_same _ _ _ _ _ _ _ _ _ _ _ A) as SD. unfold per_step.
    assert (Y1 : xDim (wps w' p) = xDim (wps w p)) by apply SD. assert (Y2 : uDim (wps w' p) = uDim (wps w p)) by apply SD. rewrite Y1, Y2. auto. }
  assert (SX : vsize xi = xDim (wps w' p) /\ forall i, vget xi i = vget (m_sol (ctl w')) i).
  { rewrite seg_ok in Ex by lia. assert (EX : xi = Vec (xDim (wps w' p)) (fun i => vget (m_sol (ctl w')) (0 + i))) by congruence. rewrite EX. split; reflexivity. }
  destruct SX as [SX XI]. apply tail_inv in Ect as [_ Ect].
  assert (SU : vsize (m_ctrl (ctl w')) = fullUDim (wps w' p)) by (rewrite Ect; reflexivity).
  assert (UI : forall j, ctrl_part (xDim (wps w' p)) (vget (m_sol (ctl w'))) j = vget (m_ctrl (ctl w')) j).
  { intro j. rewrite Ect. cbn [vget]. unfold ctrl_part. f_equal. lia. }
  exists xi. split; [unfold initialState; rewrite Ep'; exact Ex|]. split; [exact SX|].
  split; [apply (ga_A _ _ _ _ _ _ _ _ _ _ _ A)|]. split; [apply (ga_B _ _ _ _ _ _ _ _ _ _ _ A)|].
  split; [apply (ga_d _ _ _ _ _ _ _ _ _ _ _ A)|]. split; [apply (ga_same _ _ _ _ _ _ _ _ _ _ _ A)|].
  destruct (gs_all_met u F Ac reg n m N SF h w p s e true w' FP CA HO RE Ep Is So tol (vget (m_sol (ctl w'))) NS CF) as [C0 C1].
  split; [intros i Hi; rewrite XI; apply C0; exact Hi|]. split; [exact SU|]. split.
  { pose proof (computed_near u F _ Ac (ga_comp _ _ _ _ _ _ _ _ _ _ _ A)) as FN.
    pose proof (wf_fu _ W) as EU. pose proof (wf_fx _ W) as EX. pose proof (wf_nx _ W) as EN. pose proof (wf_nu _ W) as HN.
    destruct (f_preview_near u F _ _ xi (m_ctrl (ctl w')) Ac W FN SX SU) as [Z [Ez [Sz G]]]. rewrite Pv in Ez. injection Ez as <-.
    split; [rewrite Sz, EX, EN; reflexivity|].
    intros t i Ht Hi. specialize (G (t * xDim (wps w' p) + i)).
    assert (B : t * xDim (wps w' p) + i < fullXDim (wps w' p)) by (rewrite EX, EN; nia).
    destruct (G B) as [_ G2]. unfold stacked_state, stacked_size in G2. rewrite blk_quot, blk_rem in G2 by exact Hi.
    replace (nrUStep (wps w' p) * (xDim (wps w' p) + uDim (wps w' p) + 1))
      with ((nrUStep (wps w' p) - 1) * (xDim (wps w' p) + 1) + (1 + xDim (wps w' p) + fullUDim (wps w' p))); [exact G2|].
    rewrite EU. destruct (nrUStep (wps w' p)) as [|N']; [lia|]. replace (S N' - 1) with N' by lia. lia. }
  split.
  { intros i d Hi Ed. specialize (C1 i d Hi Ed). revert C1.
    apply each_row_ext; [exact W|intros j _; first [apply XI|symmetry; apply XI]|intros j _; first [apply UI|symmetry; apply UI]]. }
  intros WB V HV Re. set (X := cat (xDim (wps w' p)) (vget xi) V).
  assert (XL : forall i, i < xDim (wps w' p) -> X i = vget xi i) by (intros i Hi; apply cat_l; exact Hi).
  assert (XR : forall j, ctrl_part (xDim (wps w' p)) X j = V j) by (intro j; apply cat_r).
  assert (FV : feasible (m_qp (ctl w')) X).
  { apply (gs_feasible u F Ac reg n m N SF h w p s e true w' FP CA HO RE Ep Is So X NS St).
    - intros i Hi. rewrite XL by exact Hi. apply WB. exact Hi.
    - intros i d Hi Ed. specialize (HV i d Hi Ed). revert HV.
      apply each_row_ext; [exact W|intros j Hj; first [apply XL; exact Hj|symmetry; apply XL; exact Hj]|intros j _; first [apply XR|symmetry; apply XR]].
    - intros E j Hj. rewrite XR. apply (Re E j Hj). }
  specialize (CO X FV).
  destruct (gs_value u F Ac reg n m N SF h w p s e true w' FP CA HO RE Ep Is So (vget (m_sol (ctl w'))) Wr FS') as [R1 [E1 N1]].
  destruct (gs_value u F Ac reg n m N SF h w p s e true w' FP CA HO RE Ep Is So X Wr FS') as [R2 [E2 N2]].
  assert (RG : forall A B, (forall j, A j = B j) -> regularization (fullUDim (wps w' p)) A = regularization (fullUDim (wps w' p)) B).
  { intros a b E. unfold regularization. do 2 f_equal. apply sum_ext. intros j _. rewrite E. reflexivity. }
  assert (TC : forall y A B, (forall i, i < xDim (wps w' p) -> y i = vget xi i) -> (forall j, A j = B j) ->
     total_cost_from (wps w' p) h (spCost (ctl w)) y A = total_cost_from (wps w' p) h (spCost (ctl w)) (vget xi) B).
  { intros y a b Y E. unfold total_cost_from. apply lsum_ext. intros i _. destruct (cost_data_of h i) as [d|]; [|reflexivity].
    apply cost_value_ext; [exact W|exact Y|intros j _; apply E]. }
  assert (TS : forall y A B, (forall i, i < xDim (wps w' p) -> y i = vget xi i) -> (forall j, A j = B j) ->
     total_size_from (wps w' p) h (spCost (ctl w)) y A = total_size_from (wps w' p) h (spCost (ctl w)) (vget xi) B).
  { intros y a b Y E. unfold total_size_from. apply lsum_ext. intros i _. destruct (cost_data_of h i) as [d|]; [|reflexivity].
    apply cost_size_ext; [exact W|exact Y|intros j _; apply E]. }
  assert (XS : forall i, i < xDim (wps w' p) -> vget (m_sol (ctl w')) i = vget xi i) by (intros; symmetry; apply XI).
  cbv zeta in N1, N2. rewrite (RG _ _ UI), (TC _ _ _ XS UI), (TS _ _ _ XS UI), (TC _ _ _ XS (fun _ => eq_refl)) in N1.
  rewrite (RG _ _ XR), (TC _ _ _ XL XR), (TS _ _ _ XL XR), (TC _ _ _ XL (fun _ => eq_refl)) in N2.
  rewrite E1, E2, (CostMeaning.objective_ext_U _ _ _ X (vget (m_sol (ctl w')))) in CO
    by (intros i Hi; rewrite XL, XS by exact Hi; reflexivity).
  revert CO N1 N2. unfold near. clear. intros CO [_ N1] [_ N2]. revert CO N1 N2.
  match goal with |- (?o + _ <= _ -> _)%Qc => generalize o end. 
  generalize (growth u (total_roundings (wps w' p) h (spCost (ctl w)))).
  generalize (regularization (fullUDim (wps w' p)) (vget (m_ctrl (ctl w')))) (regularization (fullUDim (wps w' p)) V)
    (total_cost_from (wps w' p) h (spCost (ctl w)) (vget xi) (vget (m_ctrl (ctl w')))) (total_cost_from (wps w' p) h (spCost (ctl w)) (vget xi) V)
    (total_cost_from (wps w' p) h (spCost (ctl w)) (vget xi) (fun _ => 0%Qc))
    (total_size_from (wps w' p) h (spCost (ctl w)) (vget xi) (vget (m_ctrl (ctl w')))) (total_size_from (wps w' p) h (spCost (ctl w)) (vget xi) V).
  intros r1 r2 c1 c2 z s1 s2 g o L N1 N2.
  apply Qcabs_Qcle_condition in N1. apply Qcabs_Qcle_condition in N2. destruct N1 as [N1 _]. destruct N2 as [_ N2].
  replace (g * (s1 + r1 + (s2 + r2)))%Qc with (g * (r1 + s1) + g * (r2 + s2))%Qc by ring.
  revert N1 N2. generalize (g * (r1 + s1))%Qc (g * (r2 + s2))%Qc. intros a b. revert L. qc_lra.
Qed.

(** Without rounding errors and margin, the rows say what the constraints impose from the initial state (C49). *)
Theorem C72_no_rounding : forall s ps h l x U, ready ps ->
  (forall i d, In i l -> con_data_of h i = Some d -> valid_shape ps (new_con d)) ->
  (all_met_from 0 s 0 ps h l x U <-> all_imposed_from ps h l x U).
Proof.
  intros s ps h l x U R V.
  assert (M : forall d, valid_shape ps (new_con d) -> (each_row ps d x U (met 0 s 0) <-> imposes ps d x U)).
  { intros d Vd. rewrite <- (each_row_imposes _ d _ U R Vd).
    assert (T : forall k q a e z, met 0 s 0 k q a e z <-> cmp q a e).
    { intros k q a e z. unfold met. rewrite growth_0. rewrite <- meets_0. match goal with |- meets ?a _ _ _ <-> _ => replace a with 0%Qc by ring end. reflexivity. }
    split; apply each_row_mono; intros k q a e z H; [exact (proj1 (T k q a e z) H)|exact (proj2 (T k q a e z) H)]. }
  split; intros H i d Hi Ed; apply (M d (V i d Hi Ed)); apply (H i d Hi Ed).
Qed.

(** ** An example: the inexact system of C71 in double precision, an initial state chosen in [1, 3], a second solve after the system
    has been moved; the lower bound of the initial state and the upper bound of the first control are active *)
Definition cert72 (q : qp) : cert :=
  let Q := at_ (qQ q) in let c := vget (qc q) in
  let x := qz 1 in let u0 := qz 1 in
  let u1 := (- (c 2%nat + Q 2%nat 0%nat * x + Q 2%nat 1%nat * u0) / Q 2%nat 2%nat)%Qc in
  let g := fun i => (Q i 0%nat * x + Q i 1%nat * u0 + Q i 2%nat * u1 + c i)%Qc in
  let l1 := (Q 1%nat 0%nat / Q 0%nat 0%nat)%Qc in let l2 := (Q 2%nat 0%nat / Q 0%nat 0%nat)%Qc in
  let a := (Q 1%nat 1%nat - Q 1%nat 0%nat * l1)%Qc in let b := (Q 2%nat 1%nat - Q 2%nat 0%nat * l1)%Qc in
  Cert [x; u0; u1] [] [0%Qc; 0%Qc; 0%Qc] [(- g 0%nat)%Qc; (- g 1%nat)%Qc; 0%Qc]
    [(Q 0%nat 0%nat, [qz 1; l1; l2]); (a, [0%Qc; qz 1; (b / a)%Qc]); ((Q 2%nat 2%nat - Q 2%nat 0%nat * l2 - b * b / a)%Qc, [0%Qc; 0%Qc; qz 1])].
(** a solver that answers when it has checked the optimality conditions *)
Definition env72 : senv :=
  SEnv j0 (fun m => m) (fun k _ _ q =>
    if Nat.eqb k (vsize (qc q)) && kkt_check q (cert72 q) then (true, Vec k (nthq (ku (cert72 q)))) else (false, vconst k 0%Qc))
    (qz 0) (qz 1) (qz 3) (qz 4).
Lemma env72_exact : exact_solver env72.
Proof.
  intros k a b q r. unfold env72. cbn [s_qp]. destruct (Nat.eqb_spec k (vsize (qc q))) as [->|]; [|discriminate].
  destruct (kkt_check q (cert72 q)) eqn:E; [|discriminate]. cbn [andb]. intros H _.
  assert (Er : r = Vec (vsize (qc q)) (nthq (ku (cert72 q)))) by congruence. rewrite Er. split; [reflexivity|]. exact (kkt_optimal q (cert72 q) E).
Qed.
Lemma env72_sane : sane env72.
Proof.
  split; [intros M H; cbn; auto|]. intros k a b q r. unfold env72. cbn [s_qp].
  destruct (Nat.eqb k (vsize (qc q)) && kkt_check q (cert72 q)); intro H; [|discriminate].
  assert (Er : r = Vec k (nthq (ku (cert72 q)))) by congruence. rewrite Er. reflexivity.
Qed.
Definition ex72 : list op :=
  [OPs 0 (PSystem fA fB fd (vlit [3]%Z) 2); OConstruct j0 (CISps 0) qempty;
   OResetX0Bounds (elit [fin 1]) (elit [fin 3]); OResetX0Cost (mlit [[1000]]%Z) (vlit [0]%Z);
   ONewCon (DTraj fA (elit [fin 7]) true); ONewCon (DCtrlB (elit [fin (-3)]) (elit [fin 1; fin 3])); OSpanCon j0 1;
   ONewCost (DTrajC (mlit [[1; 0; 0]; [0; 1; 0]; [0; 0; 1]]%Z) (vlit [4]%Z)); ONewCost (DTargetC fA (vlit [2]%Z)); ONewCost (DCtrlC fB (vlit [0]%Z));
   OWeight 1 tenth; OWeight 2 (qz 30); OSpanCost j0 0;
   OAddCon j0 0; OAddCon j0 1; OAddCost j0 0; OAddCost j0 1; OAddCost j0 2; OSolve env72; OPs 0 (PXInit (vlit [2]%Z))].
Definition check72 :=
  match f_run arith64 reg64 world0 ex72 with
  | Some w =>
      match m_ps (ctl w), m_is (ctl w), f_solve arith64 reg64 env72 w with
      | Some p, Some s, Some (true, w') =>
        match initialState w' with
        | Some xv =>
          let ps := wps w' p in let U := vget (m_ctrl (ctl w')) in let x := vget xv in
          (* rounding errors are made in the predicted trajectory *)
          same_list (spCost (ctl w)) costs71 && same_list (spC (ctl w)) cons71 && same_list (spB (ctl w)) (tl cons71) &&
          qlt 0 (Qcabs (vget (m_traj (ctl w')) 2 - stacked_state ps x U 2)) &&
          qlt (growth u64 (total_roundings ps ex72 costs71) * (total_size_from ps ex72 costs71 x U + regularization 2 U)) (Q2Qc (1 # 1000000000)) &&
          (* the initial state is at its lower bound, not the one given to the system *)
          qeqb (x 0%nat) 1 && qeqb (vget (x0 ps) 0%nat) (qz 2) && tightb (vget (isx0lb s) 0) 1 && tightb (vget (isx0ub s) 0) (qz 3) &&
          (* the answer satisfies the constraints nearly, no control at all with a margin, and costs less *)
          forallb (fun i => match con_data_of ex72 i with Some d => each_rowb ps d x U (metb u64 1 0) | None => false end) cons71 &&
          forallb (fun i => match con_data_of ex72 i with Some d => each_rowb ps d x (fun _ => 0) (metb u64 (- (1)) 0) | None => false end) cons71 &&
          qlt (total_cost_from ps ex72 costs71 x U) (total_cost_from ps ex72 costs71 x (fun _ => 0)) && qeqb (U 0%nat) 1
        | None => false end
      | _, _, _ => false
      end
  | None => false
  end%Qc.
Example C72_example :
  sizes_fit 1 1 2 /\ f_follows_protocol arith64 reg64 1 1 2 world0 ex72 /\ f_callable arith64 reg64 world0 ex72 /\
  f_honest arith64 reg64 world0 ex72 /\ close_solver 0 env72 /\ (forall i, even_bounds ex72 i) /\
  (forall ps l, xDim ps = 1 -> fresh_steps ps ex72 l) /\ check72 = true.
Proof.
  split; [repeat split; lia|]. split.
  { apply f_followsb_ok; [|vm_compute; reflexivity]. intros e H. cbn in H.
    repeat (destruct H as [H|H]; [try discriminate H; try (injection H as <-; exact env72_sane)|]). contradiction. }
  split; [apply f_callableb_ok; vm_compute; reflexivity|]. split; [apply f_honestb_ok; vm_compute; reflexivity|].
  split; [apply C71_exact_solver; [apply Qcle_refl|exact env72_exact]|].
  split; [intros [|[|i]] lo up H; cbn in H; try discriminate H; destruct i; discriminate H|].
  split; [|vm_compute; reflexivity].
  intros ps l X [|[|[|i]]] d _ H Pd; cbn in H; try (injection H as <-; cbn in Pd; rewrite ?X in Pd; cbn in Pd; discriminate Pd); try discriminate H.
  destruct i; discriminate H.
Qed.
Print Assumptions C72_rounded_initial_state.
Print Assumptions C72_no_rounding.
Print Assumptions C72_example.
