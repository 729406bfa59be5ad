(** Results.v -- preview systems over histories of calls, and what solve publishes. *)
From Verif Require Import Base Eigen Spec Preview SpecApi PreviewProofs AutoSpan Constraints Costs Controller Registry SpecController Assembly.

Lemma honestb_ok h : forall w, honestb w h = true -> honest w h.
Proof.
  induction h as [|o t IH]; intros w H; [exact I|]. cbn [honestb honest] in *.
  apply andb_true_iff in H as [H1 H2]. split.
  - destruct o as [p o| | | | | | | | | | | | | | | | | | | | | |]; try exact I.
    destruct o; cbn in *; try exact I.
    + apply Nat.eqb_eq. exact H1.
    + rewrite !andb_true_iff, !Nat.eqb_eq, negb_true_iff in H1. tauto.
  - destruct (step w o); try (apply IH; exact H2). exact I.
Qed.

(** every call leaves the preview systems alone, except those on a preview system and solve *)
Lemma step_wps w o w' : step w o = Ok w' \/ (exists x, step w o = Throw x w') ->
  wps w' = wps w \/
  (exists p po q, o = OPs p po /\ (ps_step (wps w p) po = Ok q \/ exists x, ps_step (wps w p) po = Throw x q) /\
     wps w' = upd (wps w) p q) \/
  (exists p q, m_ps (ctl w) = Some p /\ ensureUpdated (wps w p) = Some q /\ wps w' = upd (wps w) p q).
Proof.
  intro H. unfold step in H.
  assert (IC : forall j w p w', initializeController j w p = Some w' -> wps w' = wps w).
  { intros j v p v' X. unfold initializeController in X. destruct (clearConstraintMatrices _ _) as [m|] eqn:E; [|discriminate].
    cbn [obind] in X. injection X as <-. reflexivity. }
  assert (OM : forall A (f : A -> world) o, (forall a, wps (f a) = wps w) ->
     out_map f o = Ok w' \/ (exists x, out_map f o = Throw x w') -> wps w' = wps w).
  { intros A f [a|x a|] Hf [X|[y X]]; cbn in X; try discriminate X; injection X; intros; subst; apply Hf. }
  destruct o; unfold with_con, with_cost in H;
    repeat match type of H with context [if ?b then _ else _] => destruct b end;
    try (left; destruct H as [H|[? H]]; try discriminate H; injection H; intros; subst; reflexivity);
    try (left; eapply OM; [|exact H]; intros; reflexivity).
  - right. left. exists p, o. destruct (ps_step (wps w p) o) as [q|x q|]; cbn [out_map] in H; destruct H as [H|[y H]]; try discriminate H;
      injection H; intros; subst; exists q; split; [reflexivity|split; [eauto|reflexivity]|reflexivity|split; [eauto|reflexivity]].
  - left. destruct H as [H|[? H]]; unfold of_opt in H; destruct (construct j k r w) as [v|] eqn:E; try discriminate H.
    injection H as <-. destruct k; cbn [construct] in E; try (injection E as <-; reflexivity); apply IC in E; exact E.
  - left. destruct H as [H|[? H]]; unfold of_opt in H; destruct (initializeController j w p) as [v|] eqn:E; try discriminate H.
    injection H as <-. eapply IC; exact E.
  - left. unfold addCost in H. destruct (m_ps (ctl w)); [|destruct H as [H|[? H]]; discriminate H].
    destruct (initializeCost _ _ _); destruct H as [H|[? H]]; try discriminate H; injection H; intros; subst; reflexivity.
  - left. unfold addConstraint in H. destruct (m_ps (ctl w)); [|destruct H as [H|[? H]]; discriminate H].
    destruct (initializeConstraint _ _ _) as [c|x c|]; destruct H as [H|[? H]]; try discriminate H.
    + unfold of_opt in H. destruct (addConstraintByType _ _) as [v|] eqn:E; [|discriminate]. injection H as <-.
      unfold addConstraintByType in E. cbn in E. destruct (constraintType _); try (destruct (fits_int _); [|discriminate]); injection E as <-; reflexivity.
    + unfold of_opt in H. destruct (addConstraintByType _ _); discriminate H.
    + injection H; intros; subst; reflexivity.
  - left. unfold removeCost in H. destruct (erase_first _ _); destruct H as [H|[? H]]; try discriminate H; injection H as <-; reflexivity.
  - left. destruct H as [H|[? H]]; unfold of_opt in H; destruct (removeConstraint w i) as [v|] eqn:E; try discriminate H.
    injection H as <-. unfold removeConstraint in E. destruct (erase_first i (spC (ctl w))); [|injection E as <-; reflexivity].
    destruct (constraintType _); (destruct (erase_first i _); [|discriminate]); cbn [obind] in E; injection E as <-; reflexivity.
  - left. destruct H as [H|[? H]]; unfold of_opt in H; destruct (clearConstraints w) as [v|] eqn:E; try discriminate H.
    injection H as <-. unfold clearConstraints in E. destruct (m_ps (ctl w)); [|discriminate].
    destruct (clearConstraintMatrices _ _) as [m|] eqn:E1; [|discriminate]. cbn [obind] in E. injection E as <-. reflexivity.
  - right. right. destruct (solve e w) as [[b v]|] eqn:E; [|destruct H as [H|[? H]]; discriminate H].
    destruct H as [H|[? H]]; try discriminate H. injection H as <-.
    apply solve_qp in E as [w1 [Eb [_ [_ [_ [_ [_ [-> _]]]]]]]].
    apply build_parts in Eb as [p [ps [wc [wk [q [Ep [Eu [_ [_ [_ [_ [_ ->]]]]]]]]]]]]. cbn. eauto.
Qed.

(** a preview system whose [system] has been called: consistent fields, and an updated one predicts *)
Definition ps_sound (ps : psys) : Prop :=
  1 <= nrUStep ps -> ps_wf ps /\ vsize (x0 ps) = xDim ps /\ (isUpdated ps = true -> ps_rep ps).

Lemma updateSystem_nu ps ps' : updateSystem ps = Some ps' -> nrUStep ps' = nrUStep ps.
Proof.
  unfold updateSystem. intro H. unfold obind in H. break_match H. injection H as <-. reflexivity.
Qed.
Lemma updateSystem_sound ps ps' : ps_sound ps -> updateSystem ps = Some ps' -> ps_sound ps'.
Proof.
  intros S E N. rewrite (updateSystem_nu _ _ E) in N. destruct (S N) as [W [X _]].
  destruct (updateSystem_ok ps W) as [q [U' [W2 [R2 [_ [F1 [F2 [F3 [F4 [F5 [F6 [F7 _]]]]]]]]]]]].
  rewrite U' in E. injection E as <-. split; [exact W2|]. split; [congruence|]. intros _. exact R2.
Qed.
Lemma ensure_sound ps ps' : ps_sound ps -> ensureUpdated ps = Some ps' -> ps_sound ps'.
Proof.
  unfold ensureUpdated. destruct (isUpdated ps); intros S E; [injection E as <-; exact S|eapply updateSystem_sound; eassumption].
Qed.

Lemma ps_step_sound w p po q : ps_sound (wps w p) -> honest_op w (OPs p po) ->
  (ps_step (wps w p) po = Ok q \/ exists x, ps_step (wps w p) po = Throw x q) -> ps_sound q.
Proof.
  intros S Ho H. destruct po as [s c b x n|x|A B d| | |]; cbn [ps_step honest_op] in *.
  - pose proof (system_cases (wps w p) s c b x n) as K. destruct (system (wps w p) s c b x n) as [q'|e q'|] eqn:E.
    + destruct H as [H|[? H]]; [|discriminate H]. injection H as <-. intros _.
      destruct (system_inv _ _ _ _ _ _ _ E) as [W X]. split; [exact W|]. split; [exact X|].
      destruct K as [_ [_ [_ [_ [_ [_ [K _]]]]]]]. rewrite K. discriminate.
    + destruct H as [H|[? H]]; [discriminate H|]. injection H as _ <-. destruct K as [_ [-> _]]. exact S.
    + destruct H as [H|[? H]]; discriminate H.
  - destruct H as [H|[? H]]; [|discriminate H]. injection H as <-. intro N. destruct (S N) as [W [X R]].
    split; [apply xInit_wf; exact W|]. split; [exact Ho|]. intro U. destruct (R U). split; assumption.
  - destruct H as [H|[? H]]; [|discriminate H]. injection H as <-. intro N. destruct (S N) as [W [X R]]. destruct Ho as [U Ho].
    split; [apply setModel_wf; assumption|]. split; [exact X|]. cbn. rewrite U. discriminate.
  - destruct H as [H|[? H]]; [|discriminate H]. injection H as <-. intro N. destruct (S N) as [W [X R]].
    split; [apply clear_wf; exact W|]. split; [exact X|]. cbn. discriminate.
  - destruct (updateSystem (wps w p)) eqn:E; destruct H as [H|[? H]]; try discriminate H. injection H as <-. eapply updateSystem_sound; eassumption.
  - destruct (ensureUpdated (wps w p)) eqn:E; destruct H as [H|[? H]]; try discriminate H. injection H as <-. eapply ensure_sound; eassumption.
Qed.

Lemma step_sound w o w' : (forall p, ps_sound (wps w p)) -> honest_op w o ->
  step w o = Ok w' \/ (exists x, step w o = Throw x w') -> forall p, ps_sound (wps w' p).
Proof.
  intros S Ho H p. destruct (step_wps _ _ _ H) as [->|[[p' [po [q [-> [Hq ->]]]]]|[p' [q [Ep [Eu ->]]]]]].
  - apply S.
  - unfold upd. destruct (Nat.eqb_spec p p') as [->|]; [|apply S]. eapply ps_step_sound; [apply S|exact Ho|exact Hq].
  - unfold upd. destruct (Nat.eqb_spec p p') as [->|]; [|apply S]. eapply ensure_sound; [apply S|exact Eu].
Qed.
Lemma run_sound h : forall w w', (forall p, ps_sound (wps w p)) -> honest w h -> run w h = Some w' -> forall p, ps_sound (wps w' p).
Proof.
  induction h as [|o t IH]; intros w w' S Ho R; cbn [run honest] in *; [injection R as <-; exact S|].
  destruct Ho as [H1 H2].
  destruct (step w o) as [v|x v|] eqn:E; [| |discriminate]; (eapply IH; [|exact H2|exact R]); eapply step_sound; eauto.
Qed.
Lemma reached_sound h w : reached h w -> honest world0 h -> forall p, ps_sound (wps w p).
Proof. intros R Ho. eapply run_sound; [|exact Ho|exact R]. intros p N. cbn in N. lia. Qed.

(** the preview system used by a solve is ready and keeps its data *)
Lemma ensure_ready ps ps' : ps_sound ps -> 1 <= nrUStep ps -> ensureUpdated ps = Some ps' ->
  ready ps' /\ ps_wf ps' /\ ps_rep ps' /\ same_dims ps' ps /\ x0 ps' = x0 ps /\ psA ps' = psA ps /\ psB ps' = psB ps /\ psd ps' = psd ps.
Proof.
  intros S N. destruct (S N) as [W [X R]]. unfold ensureUpdated. destruct (isUpdated ps) eqn:U; intro E.
  - injection E as <-. specialize (R eq_refl). split; [apply wf_ready; assumption|]. repeat split; try assumption; apply W || apply R.
  - destruct (updateSystem_ok ps W) as [q [U' [W2 [R2 [_ [F1 [F2 [F3 [F4 [F5 [F6 [F7 [F8 [F9 F10]]]]]]]]]]]]]].
    rewrite U' in E. injection E as <-. split; [apply wf_ready; try assumption; congruence|].
    split; [exact W2|]. split; [exact R2|]. split; [repeat split; assumption|]. auto.
Qed.

Lemma build_data e w w1 : build e w = Some w1 ->
  m_ctrl (ctl w1) = m_ctrl (ctl w) /\ m_traj (ctl w1) = m_traj (ctl w) /\ m_sol (ctl w1) = m_sol (ctl w) /\
  m_ps (ctl w1) = m_ps (ctl w) /\ m_is (ctl w1) = m_is (ctl w) /\
  exists p ps, m_ps (ctl w) = Some p /\ ensureUpdated (wps w p) = Some ps /\ wps w1 = upd (wps w) p ps.
Proof.
  intro H. apply build_parts in H as [p [ps [wc [wk [q [Ep [Eu [_ [_ [_ [_ [_ ->]]]]]]]]]]]]. cbn. repeat split. exists p, ps. auto.
Qed.
