(** Properties_Twin.v -- C74: rounding errors change numbers, nothing else. *)
From Verif Require Import Base Eigen Spec Preview SpecApi AutoSpan Constraints SpecConstraints Costs SpecCosts Controller Registry
  SpecController SpecProtocol Protocol Properties_Protocol SpecEndToEnd EndToEnd Checkers Determined StateExt Results Properties_Solvers
  ExactSolver Properties_EndToEnd
  Floats SpecFloats FloatProofs Binary64 Properties_Floats FloatCosts SpecFloatCosts FloatController SpecFloatRun FloatProtocol FloatTrace
  Properties_FloatRun Properties_FloatCosts SpecFloatInitial FloatInitial Properties_FloatInitial SpecClose Close Properties_Close SpecTwin Twin.
Open Scope nat_scope.
Open Scope list_scope.

(** The same calls made with any arithmetic and any regularization, and exactly: after each history the two programs differ in computed
    numbers only, and the next call throws the same exception in both, or none. *)
Theorem C74_same_outcomes : forall F reg h w v,
  f_run F reg world0 h = Some w -> run world0 h = Some v ->
  twins w v /\ forall o, same_outcome (f_step F reg w o) (step v o).
Proof.
  intros F reg h w v U V. pose proof (run_rel F reg h world0 world0 w v (tw_refl _) U V) as T. split; [apply tw_twins; exact T|].
  intro o. pose proof (step_rel F reg w v o T) as S. unfold same_outcome.
  destruct (f_step F reg w o), (step v o); cbn [orel] in S; try exact I; try contradiction S; try (apply tw_twins; exact S).
  destruct S as [E S]. split; [exact E|]. apply tw_twins. exact S.
Qed.

(** The documented protocol does not depend on rounding errors: a history follows it in floating point exactly when it does without
    rounding; then both are defined. *)
Theorem C74_same_protocol : forall u F reg n m N h,
  accurate u F -> sizes_fit n m N ->
  (f_follows_protocol F reg n m N world0 h /\ f_honest F reg world0 h <-> follows_protocol n m N world0 h /\ honest world0 h) /\
  (follows_protocol n m N world0 h -> honest world0 h ->
     (exists w v, f_run F reg world0 h = Some w /\ run world0 h = Some v /\ twins w v) /\
     (f_callable F reg world0 h <-> callable world0 h) /\ f_stale F reg world0 false h = stale world0 false h).
Proof.
  intros u F reg n m N h Ac SF.
  assert (D1 : f_follows_protocol F reg n m N world0 h /\ f_honest F reg world0 h -> follows_protocol n m N world0 h /\ honest world0 h).
  { intros [A B]. pose proof (f_run_defined u F Ac reg n m N SF h A B) as R. split.
    - apply e_follows. exact (call_rel F reg _ (legal_rel n m N) h _ _ (tw_refl _) R A).
    - apply e_honest. exact (call_rel F reg _ honest_rel h _ _ (tw_refl _) R B). }
  assert (D2 : follows_protocol n m N world0 h /\ honest world0 h -> f_follows_protocol F reg n m N world0 h /\ f_honest F reg world0 h).
  { intros [A B]. pose proof (C37_protocol_defined n m N h SF A) as R. split.
    - apply (call_rel' F reg _ (legal_rel n m N) h _ _ (tw_refl _) R). apply e_follows. exact A.
    - apply (call_rel' F reg _ honest_rel h _ _ (tw_refl _) R). apply e_honest. exact B. }
  split; [split; assumption|]. intros A B. destruct (D2 (conj A B)) as [A' B'].
  pose proof (f_run_defined u F Ac reg n m N SF h A' B') as U. pose proof (C37_protocol_defined n m N h SF A) as V.
  split; [|split; [split|]].
  - destruct U as [w U], V as [v V]. exists w, v. split; [exact U|]. split; [exact V|]. exact (proj1 (C74_same_outcomes F reg h w v U V)).
  - intro X. apply e_callable. exact (call_rel F reg _ callable_rel h _ _ (tw_refl _) U X).
  - intro X. apply (call_rel' F reg _ callable_rel h _ _ (tw_refl _) V). apply e_callable. exact X.
  - exact (f_stale_rel F reg h _ _ false (tw_refl _) U V).
Qed.

Lemma twins_alike w v p : twins w v -> ps_alike (wps w p) (wps v p).
Proof.
  intros [A _]. specialize (A p). destruct A as [A1 [A2 [A3 [A4 [A5 [A6 [A7 [A8 [A9 [A10 A11]]]]]]]]]].
  unfold ps_alike, same_dims. repeat split; assumption.
Qed.
(** So one history of LMPC, with constraints on the controls alone and an exact solver, gives close controls in floating point and in
    exact arithmetic: C73 with conditions on the exact history alone. *)
Theorem C74_same_controls : forall u F reg n m N h v p e e' v' w w',
  accurate u F -> within u q1em6 reg -> sizes_fit n m N -> nonneg_weights h ->
  follows_protocol n m N world0 h -> callable world0 h -> honest world0 h ->
  reached h v -> m_ps (ctl v) = Some p -> m_is (ctl v) = None ->
  on_controls h (spC (ctl v)) -> fresh_steps (wps v p) h (spCost (ctl v)) -> (spB (ctl v) <> [] \/ stale world0 false h = false) ->
  exact_solver e -> exact_solver e' -> solve e' v = Some (true, v') ->
  f_run F reg world0 h = Some w -> f_solve F reg e w = Some (true, w') ->
  let ps := wps w' p in
  let k := fullUDim ps in
  let U := vget (m_ctrl (ctl w')) in
  let V := vget (m_ctrl (ctl v')) in
  let size := fun V => (total_size ps h (spCost (ctl w)) V + regularization k V)%Qc in
  (q1em6 * distance2 k U V <= (1 + 1 + 1 + 1) * (growth u (total_roundings ps h (spCost (ctl w))) * (size U + size V)))%Qc.
Proof.
  intros u F reg n m N h v p e e' v' w w' Ac Wr SF NW FP CA HO RE Ep NI OC FS St ES ES' So' U So.
  destruct (C74_same_protocol u F reg n m N h Ac SF) as [X Y]. destruct (proj2 X (conj FP HO)) as [FP' HO'].
  destruct (Y FP HO) as [_ [YC YS]]. pose proof (proj2 YC CA) as CA'.
  pose proof (proj1 (C74_same_outcomes F reg h w v U RE)) as T.
  pose proof (proj2 (proj2 (proj2 (proj2 (proj2 (proj2 (proj2 T))))))) as [M1 [M2 [_ [_ [M5 [_ [_ [M8 [M9 _]]]]]]]]].
  apply (C73_rounded_vs_exact u F reg n m N h w v p e e' w' v'); try assumption; try congruence.
  - apply twins_alike. exact T.
  - rewrite M5. exact OC.
  - rewrite M9. eapply fresh_steps_dims; [|exact FS]. apply (proj1 (twins_alike w v p T)).
  - rewrite M8, YS. destruct St as [St|St]; [left; exact St|right; split; exact St].
Qed.

Lemma honest_then_solve e : forall h w, honest w h -> honest w (h ++ [OSolve e]).
Proof.
  induction h as [|o h IH]; intros w H; cbn [app honest] in *; [split; [exact I|destruct (step w (OSolve e)); exact I]|].
  destruct H as [H1 H2]. split; [exact H1|]. destruct (step w o); auto.
Qed.
Lemma f_run_solve F reg e h : forall w w1, f_run F reg w h = Some w1 -> f_run F reg w (h ++ [OSolve e]) = match f_solve F reg e w1 with Some (_, w2) => Some w2 | None => None end.
Proof.
  induction h as [|o h IH]; intros w w1 R; cbn [app f_run] in *.
  - assert (E : w = w1) by congruence. rewrite E. cbn [f_step]. destruct (f_solve F reg e w1) as [[b w2]|]; reflexivity.
  - destruct (f_step F reg w o); [| |discriminate R]; apply IH; exact R.
Qed.
(** So C71 holds for every history that is correct without rounding errors: in floating point solve() is then defined, and what it
    computes is nearly feasible and nearly the best. *)
Theorem C74_rounded_solve : forall u F reg n m N h v p e tol,
  accurate u F -> within u q1em6 reg -> sizes_fit n m N ->
  follows_protocol n m N world0 (h ++ [OSolve e]) -> callable world0 h -> honest world0 h ->
  reached h v -> m_ps (ctl v) = Some p -> m_is (ctl v) = None ->
  (forall i, In i (spC (ctl v)) -> even_bounds h i) ->
  fresh_steps (wps v p) h (spCost (ctl v)) -> (spB (ctl v) <> [] \/ stale world0 false h = false) ->
  close_solver tol e ->
  exists w b w', f_run F reg world0 h = Some w /\ f_solve F reg e w = Some (b, w') /\ twins w v /\
  (b = true ->
   let ps := wps w' p in
   let k := fullUDim ps in
   let U := vget (m_ctrl (ctl w')) in
   let cost := fun V => (total_cost ps h (spCost (ctl v)) V + regularization k V)%Qc in
   let size := fun V => (total_size ps h (spCost (ctl v)) V + regularization k V)%Qc in
   x0 ps = x0 (wps v p) /\ psA ps = psA (wps v p) /\ psB ps = psB (wps v p) /\ psd ps = psd (wps v p) /\ nrUStep ps = nrUStep (wps v p) /\
   vsize (m_ctrl (ctl w')) = k /\ predicts u (nrUStep ps * (xDim ps + uDim ps + 1)) ps (vget (x0 ps)) U (m_traj (ctl w')) /\
   all_met u 1 tol ps h (spC (ctl v)) U /\
   forall V, all_met u (- (1)) 0 ps h (spC (ctl v)) V -> (spB (ctl v) = [] -> representable k V) ->
     (cost U <= cost V + tol + growth u (total_roundings ps h (spCost (ctl v))) * (size U + size V))%Qc).
Proof.
  intros u F reg n m N h v p e tol Ac Wr SF FPe CA HO RE Ep NI NS FS St CS.
  pose proof (honest_then_solve e h world0 HO) as HOe.
  destruct (follows_snoc n m N (OSolve e) h world0 v FPe RE) as [FP _].
  destruct (C74_same_protocol u F reg n m N h Ac SF) as [X Y]. destruct (proj2 X (conj FP HO)) as [FP' HO'].
  destruct (Y FP HO) as [[w [v' [U [Rv T]]]] [YC YS]]. pose proof (proj2 YC CA) as CA'.
  assert (Ev : v' = v) by (unfold reached in RE; congruence). rewrite Ev in T. clear Ev Rv v'.
  destruct (C74_same_protocol u F reg n m N (h ++ [OSolve e]) Ac SF) as [Xe _]. destruct (proj2 Xe (conj FPe HOe)) as [FPe' HOe'].
  destruct (f_run_defined u F Ac reg n m N SF _ FPe' HOe') as [we Ue]. rewrite (f_run_solve F reg e h _ _ U) in Ue.
  destruct (f_solve F reg e w) as [[b w']|] eqn:So; [|discriminate Ue]. clear Ue we.
  exists w, b, w'. split; [exact U|]. split; [exact So|]. split; [exact T|]. intros ->. cbv zeta.
  pose proof (proj2 (proj2 (proj2 (proj2 (proj2 (proj2 (proj2 T))))))) as [M1 [M2 [_ [_ [M5 [_ [_ [M8 [M9 _]]]]]]]]].
  pose proof (proj1 T p) as [_ [D1 [_ [_ [_ [_ [_ [D7 [D8 [D9 D10]]]]]]]]]].
  destruct (C71_rounded_end_to_end u F reg n m N h w p e tol w' Ac Wr SF FP' CA' HO' U) as [P1 [P2 [P3 [P4 [P5 P6]]]]].
  - rewrite M2. exact Ep.
  - rewrite M1. exact NI.
  - rewrite M5. exact NS.
  - rewrite M9. eapply fresh_steps_dims; [|exact FS]. exact (proj1 (twins_alike w v p T)).
  - rewrite M8, YS. exact St.
  - exact CS.
  - exact So.
  - rewrite M5, M8, M9 in P6. split; [rewrite P1; exact D7|]. split; [rewrite P2; exact D8|]. split; [rewrite P3; exact D9|]. split; [rewrite P4; exact D10|].
    split; [|exact P6]. rewrite <- D1. apply P5.
Qed.

(** The same for InitialStateLMPC (C72). *)
Theorem C74_rounded_initial_solve : forall u F reg n m N h v p s e tol,
  accurate u F -> within u q1em6 reg -> sizes_fit n m N ->
  follows_protocol n m N world0 (h ++ [OSolve e]) -> callable world0 h -> honest world0 h ->
  reached h v -> m_ps (ctl v) = Some p -> m_is (ctl v) = Some s ->
  (forall i, In i (spC (ctl v)) -> even_bounds h i) ->
  fresh_steps (wps v p) h (spCost (ctl v)) -> (spB (ctl v) <> [] \/ stale world0 false h = false) ->
  close_solver tol e ->
  exists w b w', f_run F reg world0 h = Some w /\ f_solve F reg e w = Some (b, w') /\ twins w v /\
  (b = true ->
   let ps := wps w' p in
   let k := fullUDim ps in
   let U := vget (m_ctrl (ctl w')) in
   exists x, initialState w' = Some x /\ vsize x = xDim ps /\
   let cost := fun V => (total_cost_from ps h (spCost (ctl v)) (vget x) V + regularization k V)%Qc in
   let size := fun V => (total_size_from ps h (spCost (ctl v)) (vget x) V + regularization k V)%Qc in
   psA ps = psA (wps v p) /\ psB ps = psB (wps v p) /\ psd ps = psd (wps v p) /\ nrUStep ps = nrUStep (wps v p) /\
   close_start tol (xDim ps) (vget (isx0lb s)) (vget (isx0ub s)) (vget x) /\
   vsize (m_ctrl (ctl w')) = k /\ predicts u (nrUStep ps * (xDim ps + uDim ps + 1)) ps (vget x) U (m_traj (ctl w')) /\
   all_met_from u 1 tol ps h (spC (ctl v)) (vget x) U /\
   (within_bounds (xDim ps) (vget (isx0lb s)) (vget (isx0ub s)) (vget x) ->
    forall V, all_met_from u (- (1)) 0 ps h (spC (ctl v)) (vget x) V -> (spB (ctl v) = [] -> representable k V) ->
      (cost U <= cost V + tol + growth u (total_roundings ps h (spCost (ctl v))) * (size U + size V))%Qc)).
Proof.
  intros u F reg n m N h v p s e tol Ac Wr SF FPe CA HO RE Ep NI NS FS St CS.
  pose proof (honest_then_solve e h world0 HO) as HOe.
  destruct (follows_snoc n m N (OSolve e) h world0 v FPe RE) as [FP _].
  destruct (C74_same_protocol u F reg n m N h Ac SF) as [X Y]. destruct (proj2 X (conj FP HO)) as [FP' HO'].
  destruct (Y FP HO) as [[w [v' [U [Rv T]]]] [YC YS]]. pose proof (proj2 YC CA) as CA'.
  assert (Ev : v' = v) by (unfold reached in RE; congruence). rewrite Ev in T. clear Ev Rv v'.
  destruct (C74_same_protocol u F reg n m N (h ++ [OSolve e]) Ac SF) as [Xe _]. destruct (proj2 Xe (conj FPe HOe)) as [FPe' HOe'].
  destruct (f_run_defined u F Ac reg n m N SF _ FPe' HOe') as [we Ue]. rewrite (f_run_solve F reg e h _ _ U) in Ue.
  destruct (f_solve F reg e w) as [[b w']|] eqn:So; [|discriminate Ue]. clear Ue we.
  exists w, b, w'. split; [exact U|]. split; [exact So|]. split; [exact T|]. intros ->. cbv zeta.
  pose proof (proj2 (proj2 (proj2 (proj2 (proj2 (proj2 (proj2 T))))))) as [M1 [M2 [_ [_ [M5 [_ [_ [M8 [M9 _]]]]]]]]].
  pose proof (proj1 T p) as [_ [D1 [_ [_ [_ [_ [_ [D7 [D8 [D9 D10]]]]]]]]]].
  destruct (C72_rounded_initial_state u F reg n m N h w p s e tol w' Ac Wr SF FP' CA' HO' U) as [x [Ex [Sx [P2 [P3 [P4 [P5 P6]]]]]]].
  - rewrite M2. exact Ep.
  - rewrite M1. exact NI.
  - rewrite M5. exact NS.
  - rewrite M9. eapply fresh_steps_dims; [|exact FS]. exact (proj1 (twins_alike w v p T)).
  - rewrite M8, YS. exact St.
  - exact CS.
  - exact So.
  - rewrite M5, M8, M9 in P6. exists x. split; [exact Ex|]. split; [exact Sx|]. split; [rewrite P2; exact D8|]. split; [rewrite P3; exact D9|]. split; [rewrite P4; exact D10|].
    split; [|exact P6]. rewrite <- D1. apply P5.
Qed.

(** ** Examples: the histories of C73 and C72 *)
Example C74_example :
  sizes_fit 1 1 2 /\ nonneg_weights ex73 /\ follows_protocol 1 1 2 world0 ex73 /\ callable world0 ex73 /\ honest world0 ex73 /\
  accurate u64 arith64 /\ within u64 q1em6 reg64 /\
  match run world0 ex73 return Prop with
  | Some v => m_ps (ctl v) = Some 0 /\ m_is (ctl v) = None /\ spC (ctl v) = [0] /\ on_controls ex73 (spC (ctl v)) /\
              fresh_steps (wps v 0) ex73 (spCost (ctl v)) /\ spB (ctl v) <> []
  | None => False
  end /\ check73 = true /\
  follows_protocol 1 1 2 world0 (ex73 ++ [OSolve env71]) /\ close_solver 0 env71 /\ (forall i, even_bounds ex73 i) /\
  (* a call that throws in both *)
  match f_run arith64 reg64 world0 ex73, run world0 ex73 return Prop with
  | Some w, Some v =>
      match f_step arith64 reg64 w (OAddCon j0 0), step v (OAddCon j0 0) return Prop with Throw a _, Throw b _ => a = b | _, _ => False end
  | _, _ => False
  end.
Proof.
  destruct C73_example as [E1 [E2 [_ [_ [_ [E3 [E4 [E5 [_ [E6 [E7 [E8 E9]]]]]]]]]]]].
  split; [exact E1|]. split; [exact E2|]. split; [exact E3|]. split; [exact E4|]. split; [exact E5|].
  split; [exact arith64_accurate|]. split; [exact C61_reg|].
  split.
  { destruct (f_run arith64 reg64 world0 ex73) as [w|]; [|contradiction E6]. destruct (run world0 ex73) as [v|] eqn:R; [|contradiction E6].
    destruct E6 as [_ [A [_ [B [C [_ [D0 [_ [G [_ [H X]]]]]]]]]]]. split; [exact A|]. split; [exact B|]. split; [exact D0|].
    split; [rewrite D0; exact E7|]. split; [|rewrite G; discriminate]. apply E8. rewrite <- X. symmetry. apply C. }
  split; [exact E9|]. split.
  { apply followsb_ok; [|vm_compute; reflexivity]. intros e H. cbn in H.
    repeat (destruct H as [H|H]; [try discriminate H; try (injection H as <-; exact env71_sane)|]). contradiction. }
  split; [apply C71_exact_solver; [apply Qcle_refl|exact env71_exact]|].
  split; [intros [|i] lo up H; cbn in H; [discriminate H|destruct i; discriminate H]|].
  vm_compute. reflexivity.
Qed.
Lemma follows_then n m N o : forall h w w', follows_protocol n m N w h -> run w h = Some w' -> legal n m N w' o ->
  follows_protocol n m N w (h ++ [o]).
Proof.
  induction h as [|x h IH]; intros w w' F R L; cbn [app follows_protocol run] in *.
  - assert (E : w = w') by congruence. rewrite E. split; [exact L|]. destruct (step w' o); exact I.
  - destruct F as [F1 F2]. split; [exact F1|]. destruct (step w x); [exact (IH _ _ F2 R L)|exact (IH _ _ F2 R L)|exact I].
Qed.
(** the history of C72 before its first solve *)
Definition ex74 : list op := firstn 18 ex72.
Example C74_initial_example :
  sizes_fit 1 1 2 /\ follows_protocol 1 1 2 world0 (ex74 ++ [OSolve env72]) /\ callable world0 ex74 /\ honest world0 ex74 /\ close_solver 0 env72 /\
  (forall i, even_bounds ex74 i) /\ (forall ps l, xDim ps = 1 -> fresh_steps ps ex74 l) /\
  match run world0 ex74 return Prop with
  | Some v => m_ps (ctl v) = Some 0 /\ match m_is (ctl v) with Some _ => True | None => False end /\ xDim (wps v 0) = 1 /\
              spC (ctl v) = [0; 1] /\ spCost (ctl v) = [0; 1; 2] /\ stale world0 false ex74 = false
  | None => False
  end.
Proof.
  split; [repeat split; lia|]. split.
  { assert (F : follows_protocol 1 1 2 world0 ex74).
    { apply followsb_ok; [|vm_compute; reflexivity]. intros e H. cbn in H.
      repeat (destruct H as [H|H]; [try discriminate H; try (injection H as <-; exact env72_sane)|]). contradiction. }
    assert (L : match run world0 ex74 return Prop with Some v => m_ps (ctl v) = Some 0 /\
        match m_is (ctl v) with Some s => rows (isR s) = 1 /\ cols (isR s) = 1 /\ vsize (isr s) = 1 /\ vsize (isx0lb s) = 1 /\ vsize (isx0ub s) = 1 | None => False end
      | None => False end) by (vm_compute; repeat split).
    destruct (run world0 ex74) as [v|] eqn:R; [|contradiction L]. apply (follows_then _ _ _ _ _ _ v F R). 
    destruct L as [L1 L2]. destruct env72_sane as [S1 S2]. cbn [legal]. split; [unfold has_system; rewrite L1; discriminate|].
    split; [intros s Es; rewrite Es in L2; exact L2|]. split; [exact S1|exact S2]. }
  split; [apply callableb_ok; vm_compute; reflexivity|]. split; [apply honestb_ok; vm_compute; reflexivity|].
  split; [apply C71_exact_solver; [apply Qcle_refl|exact env72_exact]|].
  split; [intros [|[|i]] lo up H; cbn in H; try discriminate H; destruct i; discriminate H|].
  split; [|vm_compute; repeat split].
  intros ps l X [|[|[|i]]] d _ H Pd; cbn in H; try (injection H as <-; cbn in Pd; rewrite ?X in Pd; cbn in Pd; discriminate Pd); try discriminate H.
  destruct i; discriminate H.
Qed.
Print Assumptions C74_same_outcomes.
Print Assumptions C74_same_protocol.
Print Assumptions C74_same_controls.
Print Assumptions C74_rounded_solve.
Print Assumptions C74_rounded_initial_solve.
Print Assumptions C74_example.
Print Assumptions C74_initial_example.
