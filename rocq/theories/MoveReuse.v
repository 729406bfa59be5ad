(** MoveReuse.v -- a controller that was moved from, given a solver and a preview system again, works as a new one. *)
From Verif Require Import Base Eigen Preview AutoSpan Constraints Costs Controller Controllers SpecSharing Sharing Moves SpecMoves MoveProofs.

(** [m'] is [m] but for the row counts (which may be too big in [m]), the last results, the timers, and the contents of Q and c *)
Record like (m m' : lmpc) : Prop := {
  lk_is : m_is m = m_is m'; lk_ps : m_ps m = m_ps m';
  lk_ne : nrEq m' <= nrEq m; lk_ni : nrIneq m' <= nrIneq m;
  lk_c : spC m = spC m'; lk_e : spEq m = spEq m'; lk_i : spIneq m = spIneq m'; lk_b : spB m = spB m'; lk_k : spCost m = spCost m';
  lk_Qr : rows (qQ (m_qp m)) = rows (qQ (m_qp m')); lk_Qc : cols (qQ (m_qp m)) = cols (qQ (m_qp m'));
  lk_cs : vsize (qc (m_qp m)) = vsize (qc (m_qp m'));
  lk_Ai : qAineq (m_qp m) = qAineq (m_qp m'); lk_bi : qbineq (m_qp m) = qbineq (m_qp m');
  lk_Ae : qAeq (m_qp m) = qAeq (m_qp m'); lk_be : qbeq (m_qp m) = qbeq (m_qp m');
  lk_lb : qlb (m_qp m) = qlb (m_qp m'); lk_ub : qub (m_qp m) = qub (m_qp m');
  lk_sol : m_sol m = m_sol m'
}.
Lemma like_refl m : like m m. Proof. split; auto. Qed.
Ltac like_eq H :=
  match type of H with like ?m ?m' =>
    let is := fresh "is" in let p := fresh "p" in
    destruct m as [is p ne ni lc le li lb lk [Q q Ai bi Ae be lo up] tr ct so t1 t2];
    destruct m' as [is' p' ne' ni' lc' le' li' lb' lk' [Q' q' Ai' bi' Ae' be' lo' up'] tr' ct' so' t1' t2'];
    destruct H as [H1 H2 H3 H4 H5 H6 H7 H8 H9 H10 H11 H12 H13 H14 H15 H16 H17 H18 H19]; cbn in H1, H2, H3, H4, H5, H6, H7, H8, H9, H10, H11, H12, H13, H14, H15, H16, H17, H18, H19;
    subst is' p' lc' le' li' lb' lk' Ai' bi' Ae' be' lo' up' so'
  end.
Lemma fits_le a b : a <= b -> fits_int b = true -> fits_int a = true.
Proof. unfold fits_int. intros H E. apply Nat.leb_le in E || apply Z.leb_le in E || apply Nat.ltb_lt in E || apply Z.ltb_lt in E. first [apply Nat.leb_le|apply Z.leb_le|apply Nat.ltb_lt|apply Z.ltb_lt]. lia. Qed.

Definition like_out (v : world) (r r' : outcome world) : Prop :=
  match r with
  | UB => True
  | Ok v1 => exists m1, r' = Ok (set_ctl v1 m1) /\ like (ctl v1) m1
  | Throw e v1 => exists m1, r' = Throw e (set_ctl v1 m1) /\ like (ctl v1) m1
  end.
Lemma world_eta v : set_ctl v (ctl v) = v. Proof. destruct v; reflexivity. Qed.

Lemma resize_rows j m r c : rows (mresize j m r c) = r.
Proof. unfold mresize. destruct (Nat.eqb_spec (rows m) r) as [E|E], (Nat.eqb_spec (cols m) c) as [F|F]; cbn; auto. Qed.
Lemma resize_cols j m r c : cols (mresize j m r c) = c.
Proof. unfold mresize. destruct (Nat.eqb_spec (rows m) r) as [E|E], (Nat.eqb_spec (cols m) c) as [F|F]; cbn; auto. Qed.
Lemma resize_size {T} (j : nat -> T) v n : vsize (vresize j v n) = n.
Proof. unfold vresize. destruct (Nat.eqb_spec (vsize v) n) as [E|E]; cbn; auto. Qed.
Lemma init_like j v p m' v1 : like (ctl v) m' -> initializeController j v p = Some v1 ->
  exists m1, initializeController j (set_ctl v m') p = Some (set_ctl v1 m1) /\ like (ctl v1) m1.
Proof.
  intros L H. destruct v as [ps nc wc hc nk wk hk m]. cbn in L. like_eq L.
  unfold initializeController, clearConstraintMatrices in H |- *. cbn [ctl wps set_ctl set_mps optSize m_is set_qpm m_qp] in H |- *.
  destruct (fits_int _); cbn [obind] in H |- *; [|discriminate H]. injection H as <-.
  eexists. split; [cbn; reflexivity|]. split; cbn; auto; rewrite ?resize_rows, ?resize_cols, ?resize_size; reflexivity.
Qed.

(** solve: up to the results and the timers *)
Definition retag (m m' : lmpc) : lmpc := set_times (set_result m (m_traj m') (m_ctrl m')) (solveTime m') (sabTime m').
Lemma like_retag m m' : like m (retag m m'). Proof. split; cbn; auto. Qed.
Lemma updateSystem_like j v m' v1 : like (ctl v) m' -> lmpc_updateSystem j v = Some v1 ->
  lmpc_updateSystem j (set_ctl v m') = Some (set_ctl v1 (retag (ctl v1) m')).
Proof.
  intros L H. unfold lmpc_updateSystem in H |- *. cbn [set_ctl ctl wps wcon wcost ncon ncost hcon hcost].
  rewrite <- (lk_ps _ _ L). destruct (m_ps (ctl v)) as [p|] eqn:Ep; [|discriminate H].
  destruct (ensureUpdated (wps v p)) as [s|]; cbn [obind] in H |- *; [|discriminate H].
  unfold updateNr in H |- *. cbn [set_qpm spEq spIneq] in H |- *. rewrite <- (lk_e _ _ L), <- (lk_i _ _ L).
  destruct (fits_int (total_rows (wcon v) (spEq (ctl v))) && fits_int (total_rows (wcon v) (spIneq (ctl v)))); cbn [obind] in H |- *; [|discriminate H].
  cbn [updateConstraintMatrixSize set_lists set_qpm spC spCost] in H |- *. rewrite <- (lk_c _ _ L), <- (lk_k _ _ L).
  destruct (update_cons s (spC (ctl v)) (wcon v)) as [wc1|]; cbn [obind] in H |- *; [|discriminate H].
  destruct (update_costs s (spCost (ctl v)) (wcost v)) as [wk1|]; cbn [obind] in H |- *; [|discriminate H].
  injection H as <-. unfold set_ctl, retag, set_times, set_result, resetQP, optSize. cbn. rewrite Ep.
  unfold updateConstraintMatrixSize, set_lists, set_qpm, optSize. cbn. rewrite <- (lk_is _ _ L), <- (lk_ps _ _ L), ?Ep, <- (lk_b _ _ L), <- (lk_Qr _ _ L), <- (lk_Qc _ _ L), <- (lk_cs _ _ L), <- (lk_Ai _ _ L), <- (lk_bi _ _ L), <- (lk_Ae _ _ L), <- (lk_be _ _ L), <- (lk_lb _ _ L), <- (lk_ub _ _ L), <- (lk_sol _ _ L).
  try rewrite <- (lk_k _ _ L). try rewrite <- (lk_c _ _ L). try rewrite <- (lk_e _ _ L). try rewrite <- (lk_i _ _ L).
  reflexivity.
Qed.
Lemma checkDelete_retag w m' : checkDelete (set_ctl w (retag (ctl w) m')) = set_ctl (checkDelete w) (retag (ctl (checkDelete w)) m').
Proof. reflexivity. Qed.
Lemma updateResults_retag w m' w4 : updateResults w = Some w4 ->
  updateResults (set_ctl w (retag (ctl w) m')) = Some (set_ctl w4 (set_times (ctl w4) (solveTime m') (sabTime m'))) /\ solveTime (ctl w4) = solveTime (ctl w).
Proof.
  unfold updateResults, initialState. cbn [retag set_times set_result set_ctl ctl m_ps m_is m_sol wps]. destruct (m_ps (ctl w)) as [p|] eqn:Ep; [|discriminate]. destruct (m_is (ctl w)) as [is|] eqn:Ei.
  - destruct (tail _ _) as [u|]; cbn [obind]; [|discriminate]. destruct (seg _ _ _) as [xi|]; cbn [obind]; [|discriminate].
    destruct (preview _ xi u) as [x|]; cbn [obind]; [|discriminate]. intro H. injection H as <-. split; reflexivity.
  - destruct (preview _ _ _) as [x|]; cbn [obind]; [|discriminate]. intro H. injection H as <-. split; reflexivity.
Qed.
Lemma solve_like e v m' b v1 : like (ctl v) m' -> solve e v = Some (b, v1) ->
  exists m1, solve e (set_ctl v m') = Some (b, set_ctl v1 m1) /\ like (ctl v1) m1 /\ (b = true -> m1 = ctl v1).
Proof.
  intros L H. unfold solve, build in H |- *.
  destruct (lmpc_updateSystem (s_junk e) v) as [w1|] eqn:E; cbn [obind] in H; [|discriminate H].
  rewrite (updateSystem_like _ _ _ _ L E). cbn [obind]. clear E L.
  assert (F1 : forall ps, lmpc_makeQPForm ps (set_ctl w1 (retag (ctl w1) m')) = lmpc_makeQPForm ps w1) by reflexivity.
  assert (F2 : forall is ps, is_makeQPForm (s_inv e) is ps (set_ctl w1 (retag (ctl w1) m')) = is_makeQPForm (s_inv e) is ps w1) by reflexivity.
  change (m_ps (ctl (set_ctl w1 (retag (ctl w1) m')))) with (m_ps (ctl w1)). change (m_is (ctl (set_ctl w1 (retag (ctl w1) m')))) with (m_is (ctl w1)).
  change (wps (set_ctl w1 (retag (ctl w1) m'))) with (wps w1).
  destruct (m_ps (ctl w1)) as [p|] eqn:Ep; cbn [obind] in H |- *; [|discriminate H].
  rewrite F1. replace (match m_is (ctl w1) with Some is => is_makeQPForm (s_inv e) is (wps w1 p) (set_ctl w1 (retag (ctl w1) m')) | None => lmpc_makeQPForm (wps w1 p) w1 end)
    with (match m_is (ctl w1) with Some is => is_makeQPForm (s_inv e) is (wps w1 p) w1 | None => lmpc_makeQPForm (wps w1 p) w1 end) by (destruct (m_is (ctl w1)); [rewrite F2|]; reflexivity).
  clear F1 F2.
  destruct (match m_is (ctl w1) with Some is => is_makeQPForm (s_inv e) is (wps w1 p) w1 | None => lmpc_makeQPForm (wps w1 p) w1 end) as [q|]; cbn [obind] in H |- *; [|discriminate H].
  cbv zeta in H |- *.
  change (m_qp (ctl (set_ctl (set_ctl w1 (retag (ctl w1) m')) (set_qpm (ctl (set_ctl w1 (retag (ctl w1) m'))) q)))) with q.
  change (m_qp (ctl (set_ctl w1 (set_qpm (ctl w1) q)))) with q in H.
  change (nrEq (ctl (set_ctl (set_ctl w1 (retag (ctl w1) m')) (set_qpm (ctl (set_ctl w1 (retag (ctl w1) m'))) q)))) with (nrEq (ctl w1)).
  change (nrIneq (ctl (set_ctl (set_ctl w1 (retag (ctl w1) m')) (set_qpm (ctl (set_ctl w1 (retag (ctl w1) m'))) q)))) with (nrIneq (ctl w1)).
  change (nrEq (ctl (set_ctl w1 (set_qpm (ctl w1) q)))) with (nrEq (ctl w1)) in H.
  change (nrIneq (ctl (set_ctl w1 (set_qpm (ctl w1) q)))) with (nrIneq (ctl w1)) in H.
  destruct (s_qp e (vsize (qc q)) (nrEq (ctl w1)) (nrIneq (ctl w1)) q) as [ok r].
  match type of H with context [checkDelete ?x] => set (x3 := x) in H end.
  match goal with |- context [checkDelete ?x] => change x with (set_ctl x3 (retag (ctl x3) (set_times m' (solveTime (ctl x3)) (sabTime m')))) end.
  rewrite checkDelete_retag. set (w3 := checkDelete x3) in *. set (m3 := set_times m' (solveTime (ctl x3)) (sabTime m')).
  assert (T3 : solveTime (ctl w3) = solveTime m3) by reflexivity. clearbody w3 m3. clear - H T3.
  destruct ok.
  - destruct (updateResults w3) as [w4|] eqn:E; cbn [obind] in H; [|discriminate H]. destruct (updateResults_retag _ m3 _ E) as [-> E2]. cbn [obind].
    injection H as <- <-. eexists. split; [reflexivity|].
    assert (X : set_times (ctl (set_ctl w4 (set_times (ctl w4) (solveTime m3) (sabTime m3)))) (solveTime (ctl (set_ctl w4 (set_times (ctl w4) (solveTime m3) (sabTime m3))))) (Some (s_t3 e - s_t0 e)%Qc)
      = ctl (set_ctl w4 (set_times (ctl w4) (solveTime (ctl w4)) (Some (s_t3 e - s_t0 e)%Qc)))).
    { unfold set_times. cbn. rewrite E2, T3. reflexivity. }
    cbn in X |- *. rewrite X. split; [apply like_refl|intros _; reflexivity].
  - cbn [obind] in H |- *. injection H as <- <-. eexists. split; [reflexivity|]. split; [split; cbn; auto|discriminate].
Qed.
(** every call on the controller *)
Lemma step_like v m' o : like (ctl v) m' -> is_shared o = false -> like_out v (step v o) (step (set_ctl v m') o).
Proof.
  intros L SH. destruct o; try discriminate SH; cbn [step].
  - (* construction *)
    assert (E : construct j k r (set_ctl v m') = construct j k r v) by (destruct k; reflexivity). rewrite E.
    destruct (construct j k r v) as [v1|]; cbn; [|exact I]. exists (ctl v1). rewrite world_eta. split; [reflexivity|apply like_refl].
  - destruct (initializeController j v p) as [v1|] eqn:E; cbn; [|exact I]. destruct (init_like _ _ _ _ _ L E) as [m1 [-> L1]]. exists m1. auto.
  - unfold with_cost. cbn [set_ctl hcost]. destruct (0 <? hcost v i); [|cbn; exists m'; auto].
    unfold addCost. cbn [set_ctl ctl wps wcost]. rewrite <- (lk_ps _ _ L). destruct (m_ps (ctl v)) as [p|]; [|exact I].
    destruct (initializeCost j (wps v p) (wcost v i)) as [c|x c|]; cbn; [| |exact I].
    + eexists. split; [unfold set_ctl; cbn; reflexivity|]. destruct L as [? ? ? ? ? ? ? ? Lk ? ? ? ? ? ? ? ? ? ?]. split; cbn; auto. rewrite Lk. reflexivity.
    + exists m'. auto.
  - unfold with_con. cbn [set_ctl hcon]. destruct (0 <? hcon v i); [|cbn; exists m'; auto].
    unfold addConstraint. cbn [set_ctl ctl wps wcon]. rewrite <- (lk_ps _ _ L). destruct (m_ps (ctl v)) as [p|]; [|exact I].
    destruct (initializeConstraint j (wps v p) (wcon v i)) as [c|x c|]; cbn; [|exists m'; auto|exact I].
    unfold addConstraintByType. cbn [set_con set_ctl ctl wcon]. destruct (constraintType _).
    + destruct (fits_int (nrEq (ctl v) + _)) eqn:F; cbn; [|exact I]. rewrite (fits_le _ _ (proj1 (Nat.add_le_mono_r _ _ _) (lk_ne _ _ L)) F). cbn.
      eexists. split; [unfold set_ctl; cbn; reflexivity|]. destruct L. split; cbn; auto; try lia; congruence.
    + destruct (fits_int (nrIneq (ctl v) + _)) eqn:F; cbn; [|exact I]. rewrite (fits_le _ _ (proj1 (Nat.add_le_mono_r _ _ _) (lk_ni _ _ L)) F). cbn.
      eexists. split; [unfold set_ctl; cbn; reflexivity|]. destruct L. split; cbn; auto; try lia; congruence.
    + cbn. eexists. split; [unfold set_ctl; cbn; reflexivity|]. destruct L. split; cbn; auto; congruence.
  - unfold with_cost. cbn [set_ctl hcost]. destruct (0 <? hcost v i); [|cbn; exists m'; auto].
    unfold removeCost. cbn [set_ctl ctl]. rewrite <- (lk_k _ _ L). destruct (erase_first i (spCost (ctl v))) as [l|]; cbn; [|exists m'; auto].
    eexists. split; [unfold set_ctl; cbn; reflexivity|]. destruct L. split; cbn; auto.
  - unfold with_con. cbn [set_ctl hcon]. destruct (0 <? hcon v i); [|cbn; exists m'; auto].
    unfold removeConstraint. cbn [set_ctl ctl wcon]. rewrite <- (lk_c _ _ L). destruct (erase_first i (spC (ctl v))) as [l|]; cbn; [|exists m'; auto].
    rewrite <- (lk_e _ _ L), <- (lk_i _ _ L), <- (lk_b _ _ L).
    destruct (constraintType (wcon v i)).
    + destruct (erase_first i (spEq (ctl v))) as [l'|]; cbn; [|exact I]. eexists. split; [unfold set_ctl; cbn; reflexivity|]. destruct L. split; cbn; auto.
    + destruct (erase_first i (spIneq (ctl v))) as [l'|]; cbn; [|exact I]. eexists. split; [unfold set_ctl; cbn; reflexivity|]. destruct L. split; cbn; auto.
    + destruct (erase_first i (spB (ctl v))) as [l'|]; cbn; [|exact I]. eexists. split; [unfold set_ctl; cbn; reflexivity|]. destruct L. split; cbn; auto.
  - cbn. eexists. split; [unfold clearCosts, set_ctl; cbn; reflexivity|]. destruct L. split; cbn; auto.
  - unfold clearConstraints. cbn [set_ctl ctl wps]. rewrite <- (lk_ps _ _ L). destruct (m_ps (ctl v)) as [p|] eqn:Ep; [|exact I].
    unfold clearConstraintMatrices, optSize. cbn [set_lists m_is]. rewrite <- (lk_is _ _ L).
    destruct (fits_int _); cbn; [|exact I]. eexists. split; [unfold set_ctl; cbn; reflexivity|]. destruct L. split; cbn; auto.
  - cbn. eexists. split; [unfold set_ctl; cbn; reflexivity|]. destruct L. split; cbn; auto.
  - destruct (solve e v) as [[b v1]|] eqn:E; [|exact I]. destruct (solve_like _ _ _ _ _ L E) as [m1 [-> [L1 _]]]. cbn. exists m1. auto.
  - cbn. unfold resetX0Cost. cbn [set_ctl ctl]. rewrite <- (lk_is _ _ L). destruct (m_is (ctl v)) as [s|] eqn:Es; (eexists; split; [unfold set_ctl; cbn; reflexivity|]); destruct L; split; cbn; auto; congruence.
  - cbn. unfold resetX0Bounds. cbn [set_ctl ctl]. rewrite <- (lk_is _ _ L). destruct (m_is (ctl v)) as [s|] eqn:Es; (eexists; split; [unfold set_ctl; cbn; reflexivity|]); destruct L; split; cbn; auto; congruence.
Qed.

(** ** Programs: controller [a] is stale in the first one *)
Section Reuse.
Variables (K a : nat).
Hypothesis Ha : a < K.
Record stale (W W' : vworld) : Prop := {
  st_obj : same_objects (vm W) (vm W');
  st_ctl : forall c, c < K -> c <> a -> mctl (vm W) c = mctl (vm W') c;
  st_like : like (mctl (vm W) a) (mctl (vm W') a);
  st_sol : forall c, c < K -> vsol W c = vsol W' c
}.
Lemma like_held_con m m' i : like m m' -> held_con m i = held_con m' i.
Proof using. intro L. unfold held_con. rewrite (lk_c _ _ L), (lk_e _ _ L), (lk_i _ _ L), (lk_b _ _ L). reflexivity. Qed.
Lemma like_held_cost m m' i : like m m' -> held_cost m i = held_cost m' i.
Proof using. intro L. unfold held_cost. rewrite (lk_k _ _ L). reflexivity. Qed.
Lemma others_ext n c f g : (forall k, k < n -> f k = g k) -> others n c f = others n c g.
Proof using. clear Ha. induction n as [|n IH]; intro H; [reflexivity|]. cbn. rewrite IH by (intros; apply H; lia). rewrite H by lia. reflexivity. Qed.
(** the first program as [c] sees it, were controller [c] that of the second *)
Lemma stale_view W W' c : stale W W' -> agree every every (set_ctl (view K c (vm W)) (mctl (vm W') c)) (view K c (vm W')).
Proof using Ha.
  intros [[A1 [A2 [A3 [A4 [A5 [A6 A7]]]]]] B L _]. split; cbn; auto.
  - intros i _. rewrite A5. f_equal. apply others_ext. intros k Hk. destruct (Nat.eq_dec k a) as [->|N]; [apply like_held_con, L|rewrite (B k Hk N); reflexivity].
  - intros i _. rewrite A7. f_equal. apply others_ext. intros k Hk. destruct (Nat.eq_dec k a) as [->|N]; [apply like_held_cost, L|rewrite (B k Hk N); reflexivity].
Qed.
Lemma stale_ctl_like W W' c : stale W W' -> c < K -> like (mctl (vm W) c) (mctl (vm W') c).
Proof using. intros [_ B L _] Hc. destruct (Nat.eq_dec c a) as [->|N]; [exact L|rewrite (B c Hc N); apply like_refl]. Qed.

(** the stale program, when its call is defined *)
Definition stale_out (r r' : outcome vworld) : Prop :=
  match r, r' with UB, _ => True | Ok x, Ok y => stale x y | Throw e x, Throw f y => e = f /\ stale x y | _, _ => False end.
Lemma stale_put W W' c v v' t t' m1 : stale W W' -> c < K -> agree every every (set_ctl v m1) v' -> (c = a -> like (ctl v) m1) -> (c <> a -> ctl v = m1) ->
  (forall k, k < K -> t k = t' k) -> stale (VWorld (put c (vm W) v) t) (VWorld (put c (vm W') v') t').
Proof using Ha.
  intros [[A1 [A2 [A3 [A4 [A5 [A6 A7]]]]]] B L S] Hc [E1 E2 E3 E4 E5 E6 E7 E8] LK EQ T. cbn in E1, E2, E3, E4, E5, E6, E7, E8. split; cbn.
  - repeat split; cbn; auto.
  - intros k Hk N. unfold upd. destruct (Nat.eqb_spec k c) as [->|_]; [rewrite (EQ N); exact E8|apply B; assumption].
  - unfold upd. destruct (Nat.eqb_spec a c) as [<-|N]; [rewrite <- E8; apply LK; reflexivity|exact L].
  - exact T.
Qed.
Definition not_moved (v : vop) : Prop := match v with VMoveNew x y | VMoveAssign x y => x <> a /\ y <> a | _ => True end.
Lemma agree_trans_ctl u v w : agree every every u v -> agree every every v w -> agree every every u w.
Proof using. intros [A1 A2 A3 A4 A5 A6 A7 A8] [B1 B2 B3 B4 B5 B6 B7 B8]. split; try congruence; intros i H; rewrite ?A4, ?A5, ?A6, ?A7 by exact H; auto. Qed.
Lemma stale_step W W' v : stale W W' -> not_moved v ->
  stale_out (vstep K W v) (vstep K W' v) /\ (vstep K W v <> UB -> answer1 K W v = answer1 K W' v).
Proof using Ha.
  intros S NM. pose proof S as [O B L T].
  destruct v as [[o|c o]|x y|x y|c].
  - assert (X : stale_out (vstep K W (VCall (MShared o))) (vstep K W' (VCall (MShared o)))).
    { cbn [vstep mstep]. destruct (is_shared o) eqn:SH; [|cbn; split; cbn; assumption].
      assert (BA : agree every every (base (vm W)) (base (vm W'))) by (destruct O as [A1 [A2 [A3 [A4 [A5 [A6 A7]]]]]]; split; cbn; auto).
      pose proof (shared_local every every _ _ o SH ltac:(destruct o; reflexivity) BA) as Q.
      assert (Z : forall x y, agree every every x y -> stale (VWorld (put_shared (vm W) x) (vsol W)) (VWorld (put_shared (vm W') y) (vsol W'))).
      { intros x y [E1 E2 E3 E4 E5 E6 E7 E8]. split; cbn; [repeat split; cbn; auto|exact B|exact L|exact T]. }
      destruct (step (base (vm W)) o) as [x|e x|], (step (base (vm W')) o) as [y|e' y|]; cbn in Q |- *; try contradiction; [|split|]; try exact I; try apply Q; apply Z, Q. }
    split; [exact X|]. intros NU. unfold answer1. destruct (vstep K W _); [| |destruct (NU eq_refl)]; destruct (vstep K W' _); cbn in X; try contradiction; [reflexivity|]. destruct X as [-> _]. reflexivity.
  - cbn [vstep mstep]. unfold answer1. cbn [vstep mstep].
    destruct (Nat.ltb_spec c K) as [Hc|Hc]; cbn [andb].
    2: { destruct (sets_solver o); cbn; (split; [split; cbn; try assumption|reflexivity]). intros k Hk. unfold upd. destruct (Nat.eqb_spec k c) as [->|_]; [reflexivity|apply T; exact Hk]. }
    rewrite (T c Hc). destruct (uses_solver o && negb (vsol W' c)) eqn:US; [split; [exact I|intro NU; destruct (NU eq_refl)]|].
    rewrite <- (can_write_same (vm W) (vm W') o O).
    assert (T' : forall k, k < K -> (if sets_solver o then upd (vsol W) c true else vsol W) k = (if sets_solver o then upd (vsol W') c true else vsol W') k).
    { intros k Hk. destruct (sets_solver o); [|apply T; exact Hk]. unfold upd. destruct (Nat.eqb k c); [reflexivity|apply T; exact Hk]. }
    destruct (negb (is_shared o)) eqn:SH; cbn [andb].
    2: { assert (SS : forall e, o <> OSolve e) by (intros e ->; discriminate SH). cbn. split; [split; cbn; assumption|]. intros _. destruct o; try reflexivity. destruct (SS e eq_refl). }
    apply Bool.negb_true_iff in SH.
    destruct (can_write (vm W) o) eqn:CW.
    2: { cbn. split; [split; cbn; assumption|]. intros _. destruct o; try reflexivity. discriminate CW. }
    pose proof (stale_view W W' c S) as VA. pose proof (stale_ctl_like W W' c S Hc) as CL.
    assert (Q1 : c <> a -> mctl (vm W) c = mctl (vm W') c) by (intro N; apply B; assumption).
    pose proof (step_local every every _ _ o (conj VA (lists_every _)) SH ltac:(destruct o; reflexivity)) as SL.
    pose proof (step_like (view K c (vm W)) (mctl (vm W') c) o CL SH) as SK.
    assert (Q2 : c <> a -> step (set_ctl (view K c (vm W)) (mctl (vm W') c)) o = step (view K c (vm W)) o).
    { intro N. rewrite <- (Q1 N). change (mctl (vm W) c) with (ctl (view K c (vm W))). rewrite world_eta. reflexivity. }
    split.
    + destruct (step (view K c (vm W)) o) as [x|e x|]; cbn in SK |- *; [| |exact I]; destruct SK as [m1 [SK LK]]; rewrite SK in SL, Q2;
        destruct (step (view K c (vm W')) o) as [y|e' y|]; cbn in SL |- *; try contradiction.
      * apply (stale_put W W' c x y _ _ m1); try assumption; [apply SL|intros _; exact LK|]. intro N. specialize (Q2 N). injection Q2 as Q2. rewrite <- Q2. reflexivity.
      * destruct SL as [-> SL]. split; [reflexivity|]. apply (stale_put W W' c x y _ _ m1); try assumption; [apply SL|intros _; exact LK|]. intro N. specialize (Q2 N). injection Q2 as Q2. rewrite <- Q2. reflexivity.
    + intro NU.
      assert (NS : (forall e, o <> OSolve e) -> match out_map (fun x : mworld => VWorld x (if sets_solver o then upd (vsol W) c true else vsol W)) (out_map (put c (vm W)) (step (view K c (vm W)) o)) with Throw e _ => Threw e | _ => Returned end
        = match out_map (fun x : mworld => VWorld x (if sets_solver o then upd (vsol W') c true else vsol W')) (out_map (put c (vm W')) (step (view K c (vm W')) o)) with Throw e _ => Threw e | _ => Returned end).
      { intros _. destruct (step (view K c (vm W)) o) as [x|e x|]; cbn in SK, NU |- *; [| |destruct (NU eq_refl)]; destruct SK as [m1 [SK LK]]; rewrite SK in SL;
        destruct (step (view K c (vm W')) o) as [y|e' y|]; cbn in SL |- *; try contradiction; [reflexivity|]. destruct SL as [-> _]. reflexivity. }
      destruct o; try (apply NS; discriminate).
      cbn [step] in NU |- *. pose proof (solve_local every every e _ _ (conj VA (lists_every _))) as SV.
      destruct (solve e (view K c (vm W))) as [[b v1]|] eqn:E; cbn in NU; [|destruct (NU eq_refl)].
      destruct (solve_like e (view K c (vm W)) (mctl (vm W') c) b v1 CL E) as [m1 [E1 _]]. rewrite E1 in SV.
      destruct (solve e (view K c (vm W'))) as [[b' v1']|]; cbn in SV; try contradiction. destruct SV as [<- _]. reflexivity.
  - cbn [vstep]. unfold answer1. cbn [vstep]. destruct NM as [Nx Ny]. destruct ((x <? K) && (y <? K) && negb (Nat.eqb x y)) eqn:E; [|split; [exact S|reflexivity]]. split; [|reflexivity].
    apply andb_prop in E as [E _]. apply andb_prop in E as [Ex Ey]. apply Nat.ltb_lt in Ex, Ey. rewrite (B x Ex Nx). cbn. split; cbn.
    + exact O.
    + intros k Hk N. unfold upd. destruct (Nat.eqb k x); [reflexivity|]. destruct (Nat.eqb k y); [apply B; assumption|apply B; assumption].
    + unfold upd. rewrite (proj2 (Nat.eqb_neq a x)), (proj2 (Nat.eqb_neq a y)) by congruence. exact L.
    + intros k Hk. unfold upd. destruct (Nat.eqb k x); [reflexivity|]. destruct (Nat.eqb k y); apply T; assumption.
  - cbn [vstep]. unfold answer1. cbn [vstep]. destruct NM as [Nx Ny]. destruct ((x <? K) && (y <? K) && negb (Nat.eqb x y)) eqn:E; cbn [andb]; [|split; [exact S|reflexivity]].
    apply andb_prop in E as [E _]. apply andb_prop in E as [Ex Ey]. apply Nat.ltb_lt in Ex, Ey. rewrite (B x Ex Nx), (B y Ey Ny).
    destruct (same_class _ _); [|split; [exact S|reflexivity]]. split; [|reflexivity]. cbn. split; cbn.
    + exact O.
    + intros k Hk N. unfold upd. destruct (Nat.eqb k x); [reflexivity|]. destruct (Nat.eqb k y); [apply B; assumption|apply B; assumption].
    + unfold upd. rewrite (proj2 (Nat.eqb_neq a x)), (proj2 (Nat.eqb_neq a y)) by congruence. exact L.
    + intros k Hk. unfold upd. destruct (Nat.eqb k x); [reflexivity|]. destruct (Nat.eqb k y); apply T; assumption.
  - cbn [vstep]. unfold answer1. cbn [vstep]. destruct (c <? K); [|split; [exact S|reflexivity]]. split; [|reflexivity]. cbn. split; cbn; try assumption.
    intros k Hk. unfold upd. destruct (Nat.eqb k c); [reflexivity|apply T; exact Hk].
Qed.
Lemma stale_run h : forall W W' V, stale W W' -> (forall v, In v h -> not_moved v) -> vrun K W h = Some V ->
  exists V', vrun K W' h = Some V' /\ stale V V' /\ answers K W h = answers K W' h.
Proof using Ha.
  induction h as [|v t IH]; intros W W' V S NM R; [injection R as <-; exists W'; auto|]. cbn [vrun answers] in R |- *.
  destruct (stale_step W W' v S (NM v (or_introl eq_refl))) as [X Y].
  assert (NT : forall u, In u t -> not_moved u) by (intros u Hu; apply NM; right; exact Hu).
  destruct (vstep K W v) as [x|e x|]; [| |discriminate R]; destruct (vstep K W' v) as [y|e' y|]; cbn in X; try contradiction; rewrite (Y ltac:(discriminate)).
  - destruct (IH x y V X NT R) as [V' [P [Q Z]]]. exists V'. rewrite Z. auto.
  - destruct X as [_ X]. destruct (IH x y V X NT R) as [V' [P [Q Z]]]. exists V'. rewrite Z. auto.
Qed.
(** a successful solve of the stale controller *)
Lemma stale_solved W W' e V : stale W W' -> vstep K W (VCall (MCtl a (OSolve e))) = Ok V -> answer1 K W (VCall (MCtl a (OSolve e))) = Solved true ->
  exists V', vstep K W' (VCall (MCtl a (OSolve e))) = Ok V' /\ answer1 K W' (VCall (MCtl a (OSolve e))) = Solved true /\
    same_objects (vm V) (vm V') /\ forall c, c < K -> mctl (vm V) c = mctl (vm V') c /\ vsol V c = vsol V' c.
Proof using Ha.
  intros S E AN. destruct (stale_step W W' (VCall (MCtl a (OSolve e))) S I) as [X Y]. rewrite E in X, Y. specialize (Y ltac:(discriminate)). rewrite AN in Y.
  destruct (vstep K W' (VCall (MCtl a (OSolve e)))) as [V'|x V'|] eqn:E'; cbn in X; try contradiction. exists V'. split; [reflexivity|]. split; [symmetry; exact Y|].
  pose proof X as [O B L T]. split; [exact O|]. intros c Hc. split; [|apply T; exact Hc]. destruct (Nat.eq_dec c a) as [->|N]; [|apply B; assumption].
  clear Y. unfold answer1 in AN. rewrite E in AN.
  cbn [vstep mstep] in E, E'. rewrite (proj2 (Nat.ltb_lt a K) Ha) in E, E', AN. cbn [andb uses_solver is_shared negb can_write step sets_solver] in E, E'.
  destruct (negb (vsol W a)); [discriminate E|]. destruct (negb (vsol W' a)); [discriminate E'|].
  pose proof (stale_view W W' a S) as VA. pose proof (solve_local every every e _ _ (conj VA (lists_every _))) as SV.
  destruct (solve e (view K a (vm W))) as [[b v1]|] eqn:F; [|discriminate AN]. injection AN as ->.
  destruct (solve_like e (view K a (vm W)) (mctl (vm W') a) true v1 (stale_ctl_like W W' a S Ha) F) as [m1 [F1 [_ F3]]]. rewrite F1 in SV.
  destruct (solve e (view K a (vm W'))) as [[b' v1']|]; cbn in SV; try contradiction. destruct SV as [_ [[_ _ _ _ _ _ _ E8] _]].
  cbn in E, E'. injection E as <-. injection E' as <-. cbn. unfold upd. rewrite Nat.eqb_refl. rewrite <- E8. cbn. rewrite (F3 eq_refl). reflexivity.
Qed.
End Reuse.
