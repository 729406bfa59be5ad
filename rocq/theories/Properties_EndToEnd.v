(** Properties_EndToEnd.v -- C27, C36: what a solve computes, for whole histories of calls. *)
From Verif Require Import Base Eigen Spec Preview SpecApi PreviewProofs AutoSpan AutoSpanProofs Constraints ConstraintProofs
  SpecConstraints ConstraintMeaning Checkers Costs SpecCosts CostProofs CostMeaning Properties_Costs Controller Registry SpecController Assembly
  Results Properties_Assembly Properties_Results SpecProtocol Protocol Properties_Protocol SpecEndToEnd SpanData Properties_Registry
  EndToEnd EndToEndQP EndToEndRows EndToEndMain Convex ExactSolver.

(** ** C27: the cost matrix is symmetric positive definite *)
Theorem C27_cost_matrix : forall n m N h w p e b w',
  sizes_fit n m N -> follows_protocol n m N world0 h -> nonneg_weights h -> reached h w ->
  m_ps (ctl w) = Some p -> m_is (ctl w) = None -> solve e w = Some (b, w') ->
  let q := m_qp (ctl w') in
  let k := vsize (qc q) in
  rows (qQ q) = k /\ cols (qQ q) = k /\ k = fullUDim (wps w' p) /\
  symmetric k (at_ (qQ q)) /\
  (forall U, (q1em6 * sum k (fun i => U i * U i) <= sum k (fun i => U i * apply k (at_ (qQ q)) U i))%Qc) /\
  pos_def k (at_ (qQ q)).
Proof.
  intros n m N h w p e b w' SF FP NW RE Ep NI So. cbv zeta.
  pose proof (sv_pinv n m N SF h w FP RE) as P. destruct (pi_m _ _ P p Ep) as [Np Qs]. unfold opt in Qs. rewrite NI in Qs.
  destruct (C28_assembly h w p e b w' RE Ep NI So) as [_ [_ [_ [R1 [R2 [KS [HQ _]]]]]]]. cbv zeta in R1, R2, KS, HQ.
  destruct (solve_objs _ _ _ _ So) as [p' [ps [wc [wk [Ep' [Eu [Ec [Ek [Hw [HC [HK _]]]]]]]]]]]. rewrite Ep in Ep'. injection Ep' as <-.
  destruct (ensure_live (dps n m N) _ (pi_ps _ _ P p Np)) as [ps' [Eu' [Lp [_ Up]]]]. rewrite Eu in Eu'. injection Eu' as <-.
  destruct (pos_inv_holds n m N SF h w FP RE NW) as [KW AP].
  pose proof (update_costs_psd n m N SF ps Lp Up _ _ _ Ek (pi_rcost _ _ P) (fun i _ => KW i) AP) as PSD. rewrite <- HK in PSD.
  assert (FU : fullUDim ps = fullUDim (dps n m N)) by apply Lp.
  assert (KZ : vsize (qc (m_qp (ctl w'))) = fullUDim (dps n m N)).
  { destruct (solve_qp _ _ _ _ So) as [w1 [Eb [-> _]]]. destruct (build_sizes _ _ _ Eb) as [_ [_ [B3 _]]]. rewrite B3. apply Qs. }
  set (k := vsize (qc (m_qp (ctl w')))) in *.
  assert (SY : symmetric k (at_ (qQ (m_qp (ctl w'))))).
  { intros i j Hi Hj. rewrite !HQ, (Nat.eqb_sym j i). f_equal. apply lsum_ext. intros s Hs. rewrite KZ in Hi, Hj. apply (proj1 (PSD s Hs)); assumption. }
  assert (GE : forall U, (q1em6 * sum k (fun i => U i * U i) <= sum k (fun i => U i * apply k (at_ (qQ (m_qp (ctl w')))) U i))%Qc).
  { intro U. rewrite (quad_sum k (spCost (ctl w)) q1em6 _ (fun s => at_ (kQ (wcost w' s))) U) by (intros; apply HQ).
    assert (G : (0 <= lsum (spCost (ctl w)) (fun s => sum k (fun i => U i * apply k (at_ (kQ (wcost w' s))) U i)))%Qc).
    { apply lsum_nonneg. intros s Hs. rewrite KZ. apply (proj2 (PSD s Hs)). }
    qc_lra. }
  split; [exact R1|]. split; [exact R2|]. split.
  { rewrite Hw. replace (upd (wps w) p ps p) with ps by (unfold upd; rewrite Nat.eqb_refl; reflexivity). congruence. }
  split; [exact SY|]. split; [exact GE|]. intros x [i [Hi Hx]]. specialize (GE x).
  assert (Pos : (0 < sum k (fun i => x i * x i))%Qc) by (apply (sum_pos k _ i); [intros; apply qc_sq_nonneg|exact Hi|apply qc_sq_pos; exact Hx]).
  assert (E6 : (0 < q1em6)%Qc) by reflexivity.
  pose proof (qc_mul_pos _ _ E6 Pos) as M. qc_lra.
Qed.
Print Assumptions C27_cost_matrix.

(** boolean version of [callable], for the examples *)
Definition callable_opb (w : world) (o : op) : bool :=
  match o with
  | OWeights i _ | OWeight i _ | OAddCost _ i | OSpanCost _ i => 0 <? hcost w i
  | OSpanCon _ i => 0 <? hcon w i
  | _ => true
  end.
Fixpoint callableb (w : world) (h : list op) : bool :=
  match h with
  | [] => true
  | o :: t => callable_opb w o && match step w o with Ok w' | Throw _ w' => callableb w' t | UB => true end
  end.
Lemma callableb_ok : forall h w, callableb w h = true -> callable w h.
Proof.
  induction h as [|o t IH]; intros w H; [exact I|]. cbn [callableb callable] in *. apply andb_true_iff in H as [H1 H2]. split.
  - destruct o; try exact I; apply Nat.ltb_lt; exact H1.
  - destruct (step w o); auto.
Qed.

(** three solves with a weighted per-step trajectory cost, a target cost added twice, and no cost at all at the end *)
Definition ex27 : list op :=
  [OPs 0 (PSystem exA exB exd exx0 3); OConstruct j0 (CLMPCps 0) qempty;
   ONewCost (DTrajC (mlit [[1; 0]; [1; 1]]%Z) (vlit [2; 3]%Z)); OWeights 0 (vlit [5; 0]%Z); OAddCost j0 0; OSolve env_ok; OSolve env_fail;
   ONewCost d_cost; OAddCost j0 1; OAddCost j0 1; OWeight 1 (qz 7); OSolve env_ok].
Lemma ex27_weights : nonneg_weights ex27.
Proof.
  split.
  - intros i x H. cbn in H. repeat (destruct H as [H|H]; [try discriminate H|]); try contradiction. injection H as _ <-. apply qleb_ok. reflexivity.
  - intros i v H. cbn in H. repeat (destruct H as [H|H]; [try discriminate H|]); try contradiction. injection H as _ <-.
    intros r Hr. cbn in Hr. destruct r as [|[|r]]; [apply qleb_ok; reflexivity|apply qleb_ok; reflexivity|lia].
Qed.
Example C27_example : sizes_fit 2 1 3 /\ follows_protocol 2 1 3 world0 ex27 /\ nonneg_weights ex27 /\
  match run world0 ex27 with
  | Some w => match m_ps (ctl w), m_is (ctl w), solve env_ok w with
              | Some _, None, Some (true, w') =>
                  qeqb (at_ (qQ (m_qp (ctl w'))) 0 1) (qz 82) && negb (qeqb (at_ (qQ (m_qp (ctl w'))) 2 2) q1em6)
              | _, _, _ => false end
  | None => false end = true.
Proof.
  split; [repeat split; lia|]. split.
  - apply followsb_ok; [|vm_compute; reflexivity]. intros e H. cbn in H. repeat (destruct H as [H|H]; [try discriminate H|]); try contradiction;
      injection H as <-; apply env_with_sane; reflexivity.
  - split; [apply ex27_weights|]. vm_compute. reflexivity.
Qed.

(** ** C36: end to end *)
Lemma fresh_steps_dims ps ps' h l : same_dims ps' ps -> fresh_steps ps h l -> fresh_steps ps' h l.
Proof.
  intros SD H i d Hi Hd Hp. apply (H i d Hi Hd). unfold per_step in *.
  assert (X : xDim ps' = xDim ps) by apply SD. assert (Y : uDim ps' = uDim ps) by apply SD. rewrite X, Y in Hp. exact Hp.
Qed.
Theorem C36_end_to_end_partial : forall n m N h w p e w',
  sizes_fit n m N -> follows_protocol n m N world0 h -> callable world0 h -> honest world0 h -> reached h w ->
  m_ps (ctl w) = Some p -> m_is (ctl w) = None ->
  (* the registered trajectory bounds were given with the same size *)
  (forall i, In i (spC (ctl w)) -> even_bounds h i) ->
  (* per-step costs were not already solved with; no bounds of a removed constraint are left *)
  fresh_steps (wps w p) h (spCost (ctl w)) -> (spB (ctl w) <> [] \/ stale world0 false h = false) ->
  exact_solver e -> solve e w = Some (true, w') ->
  let ps := wps w' p in
  let k := fullUDim ps in
  let U := vget (m_ctrl (ctl w')) in
  let admissible := fun V => all_imposed ps h (spC (ctl w)) V /\ (spB (ctl w) = [] -> representable k V) in
  let cost := fun V => (total_cost ps h (spCost (ctl w)) V + regularization k V)%Qc in
  (* the system is the user's *)
  x0 ps = x0 (wps w p) /\ psA ps = psA (wps w p) /\ psB ps = psB (wps w p) /\ psd ps = psd (wps w p) /\ same_dims ps (wps w p) /\
  (* trajectory() is its trajectory under control() *)
  is_trajectory ps (x0 ps) (m_ctrl (ctl w')) (m_traj (ctl w')) /\
  (* control() is admissible and optimal *)
  admissible U /\ (forall V, admissible V -> (cost U <= cost V)%Qc) /\
  (* and the only one *)
  (nonneg_weights h -> forall V, admissible V -> (cost V <= cost U)%Qc -> forall i, i < k -> V i = U i).
Proof.
  intros n m N h w p e w' SF FP CA HO RE Ep NI NSc FS ST EX So. cbv zeta.
  pose proof (sv_pinv n m N SF h w FP RE) as P. destruct (pi_m _ _ P p Ep) as [Np _].
  destruct (C35_success_publishes h w p e w' RE HO Ep NI Np So) as [Es [Tr [X0 [EA [EB [Ed SD]]]]]]. cbv zeta in Es, Tr, X0, EA, EB, Ed, SD.
  pose proof (fresh_steps_dims _ _ _ _ SD FS) as FS'.
  destruct (EX _ _ _ _ _ Es (sv_called n m N SF h w p e true w' FP RE HO Ep NI So)) as [Sz [Fe Op]].
  assert (Fq : forall V, feasible (m_qp (ctl w')) V <-> _) by (intro V; exact (sv_feasible n m N SF h w p e true w' FP RE HO Ep NI So V CA ST NSc)).
  assert (Vq : forall V, qp_value (m_qp (ctl w')) V = _) by (intro V; exact (sv_value n m N SF h w p e true w' FP RE HO Ep NI So V CA FS')).
  do 5 (split; [assumption|]). split; [exact Tr|]. split; [apply Fq; exact Fe|]. split.
  - intros V AV. apply Fq in AV. specialize (Op V AV). rewrite !Vq in Op. qc_lra.
  - intros NW V AV Le i Hi. destruct (C27_cost_matrix n m N h w p e true w' SF FP NW RE Ep NI So) as [_ [_ [Kz [_ [_ PD]]]]]. cbv zeta in Kz, PD.
    symmetry. apply (minimizer_unique (m_qp (ctl w')) (vget (m_ctrl (ctl w'))) V PD Fe).
    + apply Fq. exact AV.
    + exact Op.
    + rewrite !Vq. qc_lra.
    + rewrite Kz. exact Hi.
Qed.
Print Assumptions C36_end_to_end_partial.

(** when the trajectory bound constraints have no lower bound, "imposed" is the documented meaning *)
Theorem C36_documented_constraints_partial : forall n m N h w p e b w',
  sizes_fit n m N -> follows_protocol n m N world0 h -> callable world0 h -> honest world0 h -> reached h w ->
  m_ps (ctl w) = Some p -> solve e w = Some (b, w') ->
  (forall i, In i (spC (ctl w)) -> even_bounds h i) ->
  (forall i d, In i (spC (ctl w)) -> con_data_of h i = Some d -> no_lower_bound d) ->
  forall V, all_imposed (wps w' p) h (spC (ctl w)) V <-> all_meant (wps w' p) h (spC (ctl w)) V.
Proof.
  intros n m N h w p e b w' SF FP CA HO RE Ep So NS NL V.
  destruct (sv_ps n m N SF h w p e b w' FP RE HO Ep So) as [R [SD _]].
  assert (G : forall i d, In i (spC (ctl w)) -> con_data_of h i = Some d ->
    (imposes (wps w' p) d (vget (x0 (wps w' p))) V <-> means (wps w' p) d (vget (x0 (wps w' p))) V)).
  { intros i d Hi Hd. apply imposes_means; [exact R|apply (NL i d Hi Hd)|]. intros lo up ->.
    destruct (sv_valid n m N SF h w p e b w' FP RE HO Ep So i _ CA Hi (NS i Hi) Hd) as [_ [_ Vd]]. exact Vd. }
  split; intros H i d Hi Hd; apply (G i d Hi Hd); apply (H i d Hi Hd).
Qed.
Print Assumptions C36_documented_constraints_partial.

(** the scalar system x_{k+1} = x_k + u_k from 0 over two steps; x_k <= 1, -3 <= u_k <= 3 (the bounds given for one and
    for two steps, autoSpan called); 1/2 sum_k (x_k - 4)^2 + 3/2 (x_2 - 2)^2; the answer (1, 0) with its multipliers *)
Definition ex36 : list op :=
  [OPs 0 (PSystem (mlit [[1]]%Z) (mlit [[1]]%Z) (vlit [0]%Z) (vlit [0]%Z) 2); OConstruct j0 (CLMPCps 0) qempty;
   ONewCon (DTraj (mlit [[1]]%Z) (elit [fin 1]) true); ONewCon (DCtrlB (elit [fin (-3)]) (elit [fin 3; fin 3])); OSpanCon j0 1;
   ONewCost (DTrajC (mlit [[1]]%Z) (vlit [4]%Z)); ONewCost (DTargetC (mlit [[1]]%Z) (vlit [2]%Z));
   OWeight 1 (qz 3);
   OAddCon j0 0; OAddCon j0 1; OAddCost j0 0; OAddCost j0 1].
Definition cert36 : cert :=
  Cert [qz 1; qz 0] [] [qz 0; (qz 3 - q1em6)%Qc; qz 6] []
       [(qz 4, [qz 1; qz 1]); ((qz 1 + q1em6)%Qc, [qz 1]); (q1em6, [qz 0; qz 1])].
Example C36_example :
  sizes_fit 1 1 2 /\ follows_protocol 1 1 2 world0 ex36 /\ callable world0 ex36 /\ honest world0 ex36 /\ nonneg_weights ex36 /\
  exact_solver (env_certs [cert36]) /\
  (forall i, even_bounds ex36 i) /\ stale world0 false ex36 = false /\
  (forall i d, con_data_of ex36 i = Some d -> no_lower_bound d) /\
  added_since_solve ex36 0 /\
  match run world0 ex36 with
  | Some w => match m_ps (ctl w), m_is (ctl w), solve (env_certs [cert36]) w with
              | Some p, None, Some (true, w') =>
                  Nat.eqb (cnt 0 (spCost (ctl w))) 1 && negb (per_step (wps w p) (DTargetC (mlit [[1]]%Z) (vlit [2]%Z))) &&
                  forallb (fun xy => qeqb (fst xy) (snd xy)) (combine (vdump (m_traj (ctl w'))) (map qz [0; 1; 1]%Z)) &&
                  forallb (fun xy => qeqb (fst xy) (snd xy)) (combine (vdump (m_ctrl (ctl w'))) (map qz [1; 0]%Z))
              | _, _, _ => false end
  | None => false end = true.
Proof.
  split; [repeat split; lia|]. split.
  { apply followsb_ok; [|vm_compute; reflexivity]. intros e H. cbn in H. repeat (destruct H as [H|H]; [try discriminate H|]); contradiction. }
  split; [apply callableb_ok; vm_compute; reflexivity|]. split; [apply honestb_ok; vm_compute; reflexivity|]. split.
  { split.
    - intros i x H. cbn in H. repeat (destruct H as [H|H]; [try discriminate H|]); try contradiction. injection H as _ <-. apply qleb_ok. reflexivity.
    - intros i v H. cbn in H. repeat (destruct H as [H|H]; [try discriminate H|]); contradiction. }
  split; [apply env_certs_exact|].
  split; [intros [|[|i]] lo up H; cbn in H; try discriminate H; destruct i; discriminate H|].
  split; [vm_compute; reflexivity|]. split; [intros [|[|i]] d H; cbn in H; try (injection H as <-; exact I); destruct i; discriminate H|].
  split; [|vm_compute; reflexivity].
  exists (firstn 10 ex36), j0, [OAddCost j0 1]. split; [reflexivity|]. intros e [H|[]]. discriminate H.
Qed.

(** the same problem, the trajectory cost now stretched over the horizon by autoSpan *)
Definition ex36s : list op :=
  [OPs 0 (PSystem (mlit [[1]]%Z) (mlit [[1]]%Z) (vlit [0]%Z) (vlit [0]%Z) 2); OConstruct j0 (CLMPCps 0) qempty;
   ONewCon (DTraj (mlit [[1]]%Z) (elit [fin 1; fin 1; fin 1]) true); OSpanCon j0 0; ONewCon (DCtrlB (elit [fin (-3)]) (elit [fin 3]));
   ONewCost (DTrajC (mlit [[1]]%Z) (vlit [4; 4; 4]%Z)); OSpanCost j0 0; ONewCost (DTargetC (mlit [[1]]%Z) (vlit [2]%Z));
   OWeight 1 (qz 3);
   OAddCon j0 0; OAddCon j0 1; OAddCost j0 0; OAddCost j0 1].
Example C36_example_spanned :
  sizes_fit 1 1 2 /\ follows_protocol 1 1 2 world0 ex36s /\ callable world0 ex36s /\ honest world0 ex36s /\ nonneg_weights ex36s /\
  (forall i, even_bounds ex36s i) /\ stale world0 false ex36s = false /\
  match run world0 ex36s with
  | Some w => match m_ps (ctl w), m_is (ctl w), solve (env_certs [cert36]) w with
              | Some p, None, Some (true, w') =>
                  match cost_data_of ex36s 0 with Some d => negb (per_step (wps w p) d) && Nat.eqb (cost_rows d) 3 | None => false end &&
                  forallb (fun xy => qeqb (fst xy) (snd xy)) (combine (vdump (m_traj (ctl w'))) (map qz [0; 1; 1]%Z)) &&
                  forallb (fun xy => qeqb (fst xy) (snd xy)) (combine (vdump (m_ctrl (ctl w'))) (map qz [1; 0]%Z))
              | _, _, _ => false end
  | None => false end = true.
Proof.
  split; [repeat split; lia|]. split.
  { apply followsb_ok; [|vm_compute; reflexivity]. intros e H. cbn in H. repeat (destruct H as [H|H]; [try discriminate H|]); contradiction. }
  split; [apply callableb_ok; vm_compute; reflexivity|]. split; [apply honestb_ok; vm_compute; reflexivity|]. split.
  { split.
    - intros i x H. cbn in H. repeat (destruct H as [H|H]; [try discriminate H|]); try contradiction. injection H as _ <-. apply qleb_ok. reflexivity.
    - intros i v H. cbn in H. repeat (destruct H as [H|H]; [try discriminate H|]); contradiction. }
  split; [intros [|[|i]] lo up H; cbn in H; try discriminate H; destruct i; discriminate H|].
  split; vm_compute; reflexivity.
Qed.

(** ** C36 is false of trajectory bound constraints with a lower bound: an exact solver, the documented problem has a
    solution, and the published trajectory violates the bound *)
Definition ex36r : list op :=
  [OPs 0 (PSystem (mlit [[1]]%Z) (mlit [[1]]%Z) (vlit [0]%Z) (vlit [-1]%Z) 1); OConstruct j0 (CLMPCps 0) qempty;
   ONewCon (DTrajB (elit [fin (-1)]) (elit [fin 1])); ONewCost (DTargetC (mlit [[1]]%Z) (vlit [-5]%Z));
   OAddCon j0 0; OAddCost j0 0].
Definition cert36r : cert := Cert [(- (qz 4) / (qz 1 + q1em6))%Qc] [] [] [] [((qz 1 + q1em6)%Qc, [qz 1])].
Theorem C36_refuted : exists h w p e w',
  sizes_fit 1 1 1 /\ follows_protocol 1 1 1 world0 h /\ callable world0 h /\ honest world0 h /\ nonneg_weights h /\ reached h w /\
  m_ps (ctl w) = Some p /\ m_is (ctl w) = None /\
  (forall i, even_bounds h i) /\ (forall e', ~ In (OSolve e') h) /\ ready (wps w' p) /\
  exact_solver e /\ solve e w = Some (true, w') /\
  (exists V, all_meant (wps w' p) h (spC (ctl w)) V) /\
  ~ all_meant (wps w' p) h (spC (ctl w)) (vget (m_ctrl (ctl w'))).
Proof.
  assert (C : match run world0 ex36r with
    | Some w => match m_ps (ctl w), m_is (ctl w), solve (env_certs [cert36r]) w with
                | Some p, None, Some (true, w') =>
                    let T := fun U => traj_betweenb (wps w' p) (elit [fin (-1)]) (elit [fin 1]) (vget (x0 (wps w' p))) U in
                    match spC (ctl w) with [0] => T (fun _ => 0%Qc) && negb (T (vget (m_ctrl (ctl w')))) | _ => false end
                | _, _, _ => false end
    | None => false end = true) by (vm_compute; reflexivity).
  destruct (run world0 ex36r) as [w|] eqn:Er; [|discriminate C].
  destruct (m_ps (ctl w)) as [p|] eqn:Ep; [|discriminate C]. destruct (m_is (ctl w)) eqn:Ei; [discriminate C|].
  destruct (solve (env_certs [cert36r]) w) as [[[|] w']|] eqn:Es; try discriminate C. cbv zeta in C.
  destruct (spC (ctl w)) as [|[|x] [|y l]] eqn:El; try discriminate C. apply andb_true_iff in C as [C1 C2].
  assert (FP : follows_protocol 1 1 1 world0 ex36r).
  { apply followsb_ok; [|vm_compute; reflexivity]. intros e H. cbn in H. repeat (destruct H as [H|H]; [try discriminate H|]); contradiction. }
  assert (SF : sizes_fit 1 1 1) by (repeat split; lia).
  assert (HO : honest world0 ex36r) by (apply honestb_ok; vm_compute; reflexivity).
  exists ex36r, w, p, (env_certs [cert36r]), w'. split; [exact SF|]. split; [exact FP|].
  split; [apply callableb_ok; vm_compute; reflexivity|]. split; [exact HO|]. split.
  { split.
    - intros i z H. cbn in H. repeat (destruct H as [H|H]; [try discriminate H|]); contradiction.
    - intros i v H. cbn in H. repeat (destruct H as [H|H]; [try discriminate H|]); contradiction. }
  split; [exact Er|]. do 2 (split; [assumption|]).
  split; [intros [|i] lo up H; cbn in H; [injection H as <- <-; reflexivity|destruct i; discriminate H]|].
  split; [intros e' H; cbn in H; repeat (destruct H as [H|H]; [try discriminate H|]); contradiction|].
  split; [apply (sv_ps 1 1 1 SF ex36r w p (env_certs [cert36r]) true w' FP Er HO Ep Es)|].
  split; [apply env_certs_exact|]. split; [exact Es|]. rewrite El. split.
  - exists (fun _ => 0%Qc). intros i d [<-|[]] H. cbn in H. injection H as <-. cbn [means]. apply traj_betweenb_ok. exact C1.
  - intro H. specialize (H 0 _ (or_introl eq_refl) eq_refl). cbn [means] in H. apply traj_betweenb_ok in H. rewrite H in C2. discriminate C2.
Qed.
Print Assumptions C36_refuted.
