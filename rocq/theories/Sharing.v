(** Sharing.v -- a call on a controller reads and writes only its own members, its preview system and its objects. *)
From Verif Require Import Base Eigen Preview AutoSpan Constraints Costs Controller Controllers SpecSharing.

Definition lists_in (C K : nat -> bool) (m : lmpc) : Prop :=
  (forall i, In i (spC m) -> C i = true) /\ (forall i, In i (spEq m) -> C i = true) /\ (forall i, In i (spIneq m) -> C i = true) /\
  (forall i, In i (spB m) -> C i = true) /\ (forall i, In i (spCost m) -> K i = true).
Record agree (C K : nat -> bool) (v w : world) : Prop := {
  ag_ps : wps v = wps w;
  ag_ncon : ncon v = ncon w; ag_ncost : ncost v = ncost w;
  ag_con : forall i, C i = true -> wcon v i = wcon w i; ag_hcon : forall i, C i = true -> hcon v i = hcon w i;
  ag_cost : forall i, K i = true -> wcost v i = wcost w i; ag_hcost : forall i, K i = true -> hcost v i = hcost w i;
  ag_ctl : ctl v = ctl w
}.
Definition agree_on {A} (P : nat -> bool) (f g : nat -> A) : Prop := forall i, P i = true -> f i = g i.
Lemma agree_upd {A} (P : nat -> bool) (f g : nat -> A) i x : agree_on P f g -> agree_on P (upd f i x) (upd g i x).
Proof. intros H k Hk. unfold upd. destruct (Nat.eqb k i); [reflexivity|apply H; exact Hk]. Qed.
Lemma agree_set C K v w m : agree C K v w -> agree C K (set_ctl v m) (set_ctl w m).
Proof. intros []; split; cbn; auto. Qed.

(** outcomes *)
Definition out_agree {A} (R : A -> A -> Prop) (a b : outcome A) : Prop :=
  match a, b with Ok x, Ok y => R x y | Throw e x, Throw f y => e = f /\ R x y | UB, UB => True | _, _ => False end.
Definition opt_agree {A} (R : A -> A -> Prop) (a b : option A) : Prop :=
  match a, b with Some x, Some y => R x y | None, None => True | _, _ => False end.

(** ** Reading the objects *)
Lemma total_rows_agree P f g l : agree_on P f g -> (forall i, In i l -> P i = true) -> total_rows f l = total_rows g l.
Proof. intros H. unfold total_rows. induction l as [|i t IH]; intros L; cbn; [reflexivity|]. rewrite (H i (L i (or_introl eq_refl))), IH; [reflexivity|]. intros k Hk. apply L. right. exact Hk. Qed.
Lemma updateNr_agree P f g m : agree_on P f g -> (forall i, In i (spEq m) -> P i = true) -> (forall i, In i (spIneq m) -> P i = true) -> updateNr f m = updateNr g m.
Proof. intros H A B. unfold updateNr. rewrite (total_rows_agree P f g (spEq m) H A), (total_rows_agree P f g (spIneq m) H B). reflexivity. Qed.
Lemma update_cons_agree P ps l : (forall i, In i l -> P i = true) -> forall f g, agree_on P f g ->
  opt_agree (agree_on P) (update_cons ps l f) (update_cons ps l g).
Proof.
  unfold update_cons. induction l as [|i t IH]; intros L f g H; [exact H|]. cbn. rewrite (H i (L i (or_introl eq_refl))).
  destruct (c_update ps (g i)) as [c|]; cbn; [|exact I]. apply IH; [intros k Hk; apply L; right; exact Hk|]. apply agree_upd. exact H.
Qed.
Lemma update_costs_agree P ps l : (forall i, In i l -> P i = true) -> forall f g, agree_on P f g ->
  opt_agree (agree_on P) (update_costs ps l f) (update_costs ps l g).
Proof.
  unfold update_costs. induction l as [|i t IH]; intros L f g H; [exact H|]. cbn. rewrite (H i (L i (or_introl eq_refl))).
  destruct (k_update ps (g i)) as [c|]; cbn; [|exact I]. apply IH; [intros k Hk; apply L; right; exact Hk|]. apply agree_upd. exact H.
Qed.
Lemma stack_rows_agree P fu f g l : agree_on P f g -> (forall i, In i l -> P i = true) -> forall s, stack_rows fu f l s = stack_rows fu g l s.
Proof.
  intro H. unfold stack_rows. induction l as [|i t IH]; intros L [[A b] n]; [reflexivity|]. cbn. rewrite (H i (L i (or_introl eq_refl))).
  destruct (setBlock A n 0 (nrConstr (g i)) fu (cA (g i))); cbn; [|reflexivity]. destruct (setSeg b n (nrConstr (g i)) (cb (g i))); cbn; [|reflexivity].
  apply IH. intros k Hk. apply L. right. exact Hk.
Qed.
Lemma is_stack_rows_agree P xd fu f g l : agree_on P f g -> (forall i, In i l -> P i = true) -> forall s, is_stack_rows xd fu f l s = is_stack_rows xd fu g l s.
Proof.
  intro H. unfold is_stack_rows. induction l as [|i t IH]; intros L [[A b] n]; [reflexivity|]. cbn. rewrite (H i (L i (or_introl eq_refl))).
  destruct (setBlock A n 0 (nrConstr (g i)) xd (cY (g i))) as [A'|]; cbn; [|reflexivity]. destruct (setBlock A' n xd (nrConstr (g i)) fu (cA (g i))); cbn; [|reflexivity].
  destruct (setSeg b n (nrConstr (g i)) (cz (g i))); cbn; [|reflexivity]. apply IH. intros k Hk. apply L. right. exact Hk.
Qed.
Lemma stack_bounds_agree P f g l : agree_on P f g -> (forall i, In i l -> P i = true) -> forall s, stack_bounds f l s = stack_bounds g l s.
Proof.
  intro H. unfold stack_bounds. induction l as [|i t IH]; intros L [[A b] n]; [reflexivity|]. cbn. rewrite (H i (L i (or_introl eq_refl))).
  destruct (setSeg A n (nrConstr (g i)) (clb (g i))); cbn; [|reflexivity]. destruct (setSeg b n (nrConstr (g i)) (cub (g i))); cbn; [|reflexivity].
  apply IH. intros k Hk. apply L. right. exact Hk.
Qed.
Lemma sum_costs_agree P f g l : agree_on P f g -> (forall i, In i l -> P i = true) -> forall s, sum_costs f l s = sum_costs g l s.
Proof.
  intro H. unfold sum_costs. induction l as [|i t IH]; intros L [Q c]; [reflexivity|]. cbn. rewrite (H i (L i (or_introl eq_refl))).
  destruct (madd Q (kQ (g i))); cbn; [|reflexivity]. destruct (vadd c (kc (g i))); cbn; [|reflexivity].
  apply IH. intros k Hk. apply L. right. exact Hk.
Qed.
Lemma is_sum_costs_agree P ps f g l : agree_on P f g -> (forall i, In i l -> P i = true) -> forall s, is_sum_costs ps f l s = is_sum_costs ps g l s.
Proof.
  intro H. unfold is_sum_costs. induction l as [|i t IH]; intros L [Q c]; [reflexivity|]. cbn [for_list]. rewrite (H i (L i (or_introl eq_refl))).
  match goal with |- obind ?a _ = obind ?a _ => destruct a; cbn [obind]; [|reflexivity] end.
  apply IH. intros k Hk. apply L. right. exact Hk.
Qed.
Lemma check_agree (u v : list nat -> nat -> nat) lim : forall todo kept, (forall l i, In i todo -> u l i = v l i) -> check u lim kept todo = check v lim kept todo.
Proof.
  induction todo as [|i t IH]; intros kept H; cbn; [reflexivity|]. rewrite (H _ i (or_introl eq_refl)).
  destruct (_ <=? _); apply IH; intros; apply H; right; assumption.
Qed.
Lemma check_incl u lim : forall todo kept i, In i (check u lim kept todo) -> In i kept \/ In i todo.
Proof.
  induction todo as [|a t IH]; intros kept i H; cbn in H; [left; exact H|].
  destruct (_ <=? _); apply IH in H as [H|H]; [left; exact H|right; right; exact H| |right; right; exact H].
  apply in_app_or in H as [H|[<-|[]]]; [left; exact H|right; left; reflexivity].
Qed.
Lemma erase_incl i : forall l l', erase_first i l = Some l' -> In i l /\ forall k, In k l' -> In k l.
Proof.
  induction l as [|x t IH]; intros l' H; cbn in H; [discriminate H|]. destruct (Nat.eqb_spec x i) as [->|Ne].
  - injection H as <-. split; [left; reflexivity|intros k Hk; right; exact Hk].
  - destruct (erase_first i t) as [t'|]; cbn in H; [|discriminate H]. injection H as <-. destruct (IH t' eq_refl) as [A B].
    split; [right; exact A|]. intros k [<-|Hk]; [left; reflexivity|right; apply B; exact Hk].
Qed.

(** ** Calls on the controller: what they read *)
Definition adds_own (C K : nat -> bool) (o : op) : Prop :=
  match o with OAddCon _ i => C i = true | OAddCost _ i => K i = true | _ => True end.
Section Local.
Variables (C K : nat -> bool).
Notation ag := (agree C K).
Notation li := (lists_in C K).
Definition good (v w : world) : Prop := ag v w /\ li (ctl v).

Lemma initController_local j v w p : good v w -> opt_agree good (initializeController j v p) (initializeController j w p).
Proof using.
  intros [A L]. unfold initializeController. rewrite (ag_ps _ _ _ _ A), (ag_ctl _ _ _ _ A).
  unfold clearConstraintMatrices. destruct (fits_int _); cbn [obind opt_agree]; [|exact I].
  split; [apply agree_set; exact A|]. cbn. rewrite (ag_ctl _ _ _ _ A) in L. exact L.
Qed.
Lemma lists_default s r : li (lmpc_default s r).
Proof using. repeat split; cbn; contradiction. Qed.
Lemma construct_local j k r v w : good v w -> opt_agree good (construct j k r v) (construct j k r w).
Proof using.
  intros [A L]. destruct k; cbn [construct].
  - split; [apply agree_set; exact A|apply lists_default].
  - apply initController_local. split; [apply agree_set; exact A|apply lists_default].
  - split; [apply agree_set; exact A|apply lists_default].
  - rewrite (ag_ps _ _ _ _ A). apply initController_local. split; [apply agree_set; exact A|apply lists_default].
Qed.
Lemma agree_set_con v w i c : ag v w -> ag (set_con v i c) (set_con w i c).
Proof using. intros []; split; cbn; auto. apply (agree_upd C). exact ag_con0. Qed.
Lemma agree_set_cost v w i c : ag v w -> ag (set_cost v i c) (set_cost w i c).
Proof using. intros []; split; cbn; auto. apply (agree_upd K). exact ag_cost0. Qed.
Lemma addCost_local j v w i : good v w -> K i = true -> out_agree good (addCost j v i) (addCost j w i).
Proof using.
  intros [A L] Hi. unfold addCost. rewrite (ag_ctl _ _ _ _ A), (ag_ps _ _ _ _ A), (ag_cost _ _ _ _ A i Hi).
  destruct (m_ps (ctl w)) as [p|]; [|exact I]. destruct (initializeCost j (wps w p) (wcost w i)) as [c|e c|]; cbn [out_agree]; [| |exact I].
  - cbn. rewrite (ag_ctl _ _ _ _ A) in *. split; [apply agree_set, agree_set_cost; exact A|]. destruct L as [L1 [L2 [L3 [L4 L5]]]]. repeat split; cbn; auto.
    intros k Hk. apply in_app_or in Hk as [Hk|[<-|[]]]; auto.
  - split; [reflexivity|]. split; [apply agree_set_cost; exact A|exact L].
Qed.
Lemma in_snoc {A} (l : list A) x k : In k (l ++ [x]) -> In k l \/ k = x.
Proof using. intro H. apply in_app_or in H as [H|[H|[]]]; auto. Qed.
Lemma addConstraint_local j v w i : good v w -> C i = true -> out_agree good (addConstraint j v i) (addConstraint j w i).
Proof using.
  intros [A L] Hi. unfold addConstraint. rewrite (ag_ctl _ _ _ _ A), (ag_ps _ _ _ _ A), (ag_con _ _ _ _ A i Hi).
  destruct (m_ps (ctl w)) as [p|]; [|exact I]. destruct (initializeConstraint j (wps w p) (wcon w i)) as [c|e c|]; cbn [out_agree]; [| |exact I].
  - unfold addConstraintByType. cbn [set_con wcon ctl]. unfold upd at 1 2 3 6 7 8. unfold upd. rewrite Nat.eqb_refl, (ag_ctl _ _ _ _ A) in *.
    destruct L as [L1 [L2 [L3 [L4 L5]]]].
    assert (AS : forall m, ag (set_ctl (set_con v i c) m) (set_ctl (set_con w i c) m)) by (intro; apply agree_set, agree_set_con; exact A).
    destruct (constraintType c); try (destruct (fits_int _)); cbn [of_opt out_agree]; try exact I;
      (split; [apply AS|]); repeat split; cbn; auto; intros k Hk; apply in_snoc in Hk as [Hk| ->]; auto.
  - split; [reflexivity|]. split; [apply agree_set_con; exact A|exact L].
Qed.
Lemma removeCost_local v w i : good v w -> good (removeCost v i) (removeCost w i).
Proof using.
  intros [A L]. unfold removeCost. rewrite (ag_ctl _ _ _ _ A). destruct (erase_first i (spCost (ctl w))) as [l|] eqn:E; [|split; assumption].
  apply erase_incl in E as [_ E]. rewrite (ag_ctl _ _ _ _ A) in *. destruct L as [L1 [L2 [L3 [L4 L5]]]]. split; [apply agree_set; exact A|]. repeat split; cbn; auto.
Qed.
Lemma removeConstraint_local v w i : good v w -> opt_agree good (removeConstraint v i) (removeConstraint w i).
Proof using.
  intros [A L]. unfold removeConstraint. rewrite (ag_ctl _ _ _ _ A). destruct (erase_first i (spC (ctl w))) as [l|] eqn:E; [|split; assumption].
  apply erase_incl in E as [Hi E]. rewrite (ag_ctl _ _ _ _ A) in *. pose proof L as [L1 [L2 [L3 [L4 L5]]]]. rewrite (ag_con _ _ _ _ A i (L1 i Hi)).
  destruct (constraintType (wcon w i)); (match goal with |- context [obind (erase_first i ?b) _] => destruct (erase_first i b) as [l'|] eqn:E' end); cbn [obind opt_agree]; try exact I;
    apply erase_incl in E' as [_ E']; (split; [apply agree_set; exact A|]); repeat split; cbn; auto.
Qed.
Lemma clearConstraints_local v w : good v w -> opt_agree good (clearConstraints v) (clearConstraints w).
Proof using.
  intros [A L]. unfold clearConstraints. rewrite (ag_ctl _ _ _ _ A), (ag_ps _ _ _ _ A). destruct (m_ps (ctl w)) as [p|]; [|exact I].
  unfold clearConstraintMatrices. destruct (fits_int _); cbn [obind opt_agree]; [|exact I]. split; [apply agree_set; exact A|]. repeat split; cbn; try contradiction.
  rewrite (ag_ctl _ _ _ _ A) in L. apply L.
Qed.
Lemma updateSystem_local j v w : good v w -> opt_agree good (lmpc_updateSystem j v) (lmpc_updateSystem j w).
Proof using.
  intros [A L]. unfold lmpc_updateSystem. rewrite (ag_ctl _ _ _ _ A) in *. rewrite (ag_ps _ _ _ _ A). destruct (m_ps (ctl w)) as [p|]; [|exact I].
  destruct (ensureUpdated (wps w p)) as [ps|]; cbn [obind]; [|exact I].
  set (m := set_qpm (ctl w) (resetQP (m_qp (ctl w)))). assert (LM : li m) by exact L.
  rewrite (updateNr_agree C (wcon v) (wcon w) m (ag_con _ _ _ _ A)) by apply LM.
  destruct (updateNr (wcon w) m) as [m1|] eqn:E; cbn [obind]; [|exact I].
  assert (L1 : li (updateConstraintMatrixSize j ps m1)).
  { unfold updateNr in E. destruct (_ && _); [|discriminate E]. injection E as <-. exact LM. }
  set (m2 := updateConstraintMatrixSize j ps m1) in *.
  pose proof (update_cons_agree C ps (spC m2) (proj1 L1) _ _ (ag_con _ _ _ _ A)) as Q1.
  destruct (update_cons ps (spC m2) (wcon v)) as [f1|], (update_cons ps (spC m2) (wcon w)) as [f2|]; cbn in Q1; try contradiction; cbn [obind]; [|exact I].
  pose proof (update_costs_agree K ps (spCost m2) ltac:(apply L1) _ _ (ag_cost _ _ _ _ A)) as Q2.
  destruct (update_costs ps (spCost m2) (wcost v)) as [g1|], (update_costs ps (spCost m2) (wcost w)) as [g2|]; cbn in Q2; try contradiction; cbn [obind]; [|exact I].
  split; [|exact L1]. destruct A as [E1 E2 E3 E4 E5 E6 E7 E8]. split; cbn; auto.
Qed.
Lemma makeQPForm_local ps v w : good v w -> lmpc_makeQPForm ps v = lmpc_makeQPForm ps w.
Proof using.
  intros [A L]. unfold lmpc_makeQPForm. rewrite (ag_ctl _ _ _ _ A) in *. destruct L as [L1 [L2 [L3 [L4 L5]]]].
  rewrite (sum_costs_agree K _ _ _ (ag_cost _ _ _ _ A) L5). destruct (sum_costs _ _ _) as [[Q c]|]; cbn [obind]; [|reflexivity].
  rewrite (stack_rows_agree C _ _ _ _ (ag_con _ _ _ _ A) L2). destruct (stack_rows _ _ _ _) as [[[Ae be] n]|]; cbn [obind]; [|reflexivity].
  rewrite (stack_rows_agree C _ _ _ _ (ag_con _ _ _ _ A) L3). destruct (stack_rows _ _ _ _) as [[[Ai bi] n']|]; cbn [obind]; [|reflexivity].
  rewrite (stack_bounds_agree C _ _ _ (ag_con _ _ _ _ A) L4). reflexivity.
Qed.
Lemma is_makeQPForm_local inv s ps v w : good v w -> is_makeQPForm inv s ps v = is_makeQPForm inv s ps w.
Proof using.
  intros [A L]. unfold is_makeQPForm. rewrite (ag_ctl _ _ _ _ A) in *. destruct L as [L1 [L2 [L3 [L4 L5]]]].
  rewrite (is_sum_costs_agree K _ _ _ _ (ag_cost _ _ _ _ A) L5). destruct (is_sum_costs _ _ _ _) as [[Q c]|]; cbn [obind]; [|reflexivity].
  rewrite (is_stack_rows_agree C _ _ _ _ _ (ag_con _ _ _ _ A) L2). destruct (is_stack_rows _ _ _ _ _) as [[[Ae be] n]|]; cbn [obind]; [|reflexivity].
  rewrite (is_stack_rows_agree C _ _ _ _ _ (ag_con _ _ _ _ A) L3). destruct (is_stack_rows _ _ _ _ _) as [[[Ai bi] n']|]; cbn [obind]; [|reflexivity].
  rewrite (stack_bounds_agree C _ _ _ (ag_con _ _ _ _ A) L4). reflexivity.
Qed.
Lemma build_local e v w : good v w -> opt_agree good (build e v) (build e w).
Proof using.
  intro G. unfold build. pose proof (updateSystem_local (s_junk e) v w G) as U.
  destruct (lmpc_updateSystem (s_junk e) v) as [v1|], (lmpc_updateSystem (s_junk e) w) as [w1|]; cbn in U; try contradiction; cbn [obind]; [|exact I].
  pose proof U as [A L]. rewrite (ag_ctl _ _ _ _ A), (ag_ps _ _ _ _ A) in *. destruct (m_ps (ctl w1)) as [p|]; [|exact I].
  assert (E : (match m_is (ctl w1) with None => lmpc_makeQPForm (wps w1 p) v1 | Some s => is_makeQPForm (s_inv e) s (wps w1 p) v1 end) =
    (match m_is (ctl w1) with None => lmpc_makeQPForm (wps w1 p) w1 | Some s => is_makeQPForm (s_inv e) s (wps w1 p) w1 end)).
  { destruct (m_is (ctl w1)); [apply is_makeQPForm_local|apply makeQPForm_local]; exact U. }
  rewrite E. destruct (match m_is (ctl w1) with None => lmpc_makeQPForm (wps w1 p) w1 | Some s => is_makeQPForm (s_inv e) s (wps w1 p) w1 end); cbn [obind opt_agree]; [|exact I].
  split; [apply agree_set; exact A|exact L].
Qed.
Lemma checkDelete_local v w : good v w -> good (checkDelete v) (checkDelete w).
Proof using.
  intros [A L]. unfold checkDelete. rewrite (ag_ctl _ _ _ _ A) in *. pose proof L as [L1 [L2 [L3 [L4 L5]]]]. pose proof (ag_hcon _ _ _ _ A) as HH.
  rewrite (check_agree (fun l => use_con (hcon v) l (spEq (ctl w)) (spIneq (ctl w)) (spB (ctl w))) (fun l => use_con (hcon w) l (spEq (ctl w)) (spIneq (ctl w)) (spB (ctl w))))
    by (intros l i Hi; unfold use_con; rewrite (HH i (L1 i Hi)); reflexivity).
  set (lc := check _ 2 [] (spC (ctl w))) in *.
  rewrite (check_agree (fun l => use_con (hcon v) lc l (spIneq (ctl w)) (spB (ctl w))) (fun l => use_con (hcon w) lc l (spIneq (ctl w)) (spB (ctl w))))
    by (intros l i Hi; unfold use_con; rewrite (HH i (L2 i Hi)); reflexivity).
  set (le := check _ 2 [] (spEq (ctl w))) in *.
  rewrite (check_agree (fun l => use_con (hcon v) lc le l (spB (ctl w))) (fun l => use_con (hcon w) lc le l (spB (ctl w))))
    by (intros l i Hi; unfold use_con; rewrite (HH i (L3 i Hi)); reflexivity).
  set (lq := check _ 2 [] (spIneq (ctl w))) in *.
  rewrite (check_agree (fun l => use_con (hcon v) lc le lq l) (fun l => use_con (hcon w) lc le lq l))
    by (intros l i Hi; unfold use_con; rewrite (HH i (L4 i Hi)); reflexivity).
  rewrite (check_agree (fun l i => hcost v i + cnt i l) (fun l i => hcost w i + cnt i l)) by (intros l i Hi; rewrite (ag_hcost _ _ _ _ A i (L5 i Hi)); reflexivity).
  split; [apply agree_set; exact A|].
  repeat split; cbn; intros i Hi; apply check_incl in Hi as [[]|Hi]; auto.
Qed.
Lemma updateResults_local v w : good v w -> opt_agree good (updateResults v) (updateResults w).
Proof using.
  intros [A L]. unfold updateResults, initialState. rewrite (ag_ctl _ _ _ _ A), (ag_ps _ _ _ _ A) in *. destruct (m_ps (ctl w)) as [p|]; [|exact I].
  destruct (m_is (ctl w)).
  - destruct (tail (m_sol (ctl w)) (fullUDim (wps w p))) as [u|]; cbn [obind]; [|exact I]. destruct (seg (m_sol (ctl w)) 0 (xDim (wps w p))) as [xi|]; cbn [obind]; [|exact I].
    destruct (preview (wps w p) xi u); cbn [obind opt_agree]; [|exact I]. split; [apply agree_set; exact A|exact L].
  - cbv zeta. destruct (preview (wps w p) (x0 (wps w p)) (m_sol (ctl w))); cbn [obind opt_agree]; [|exact I]. split; [apply agree_set; exact A|exact L].
Qed.
Lemma good_set v w m m' : good v w -> lists_in C K m -> m = m' -> good (set_ctl v m) (set_ctl w m').
Proof using. intros [A L] LM <-. split; [apply agree_set; exact A|exact LM]. Qed.
Lemma solve_local e v w : good v w -> opt_agree (fun a b => fst a = fst b /\ good (snd a) (snd b)) (solve e v) (solve e w).
Proof using.
  intro G. unfold solve. pose proof (build_local e v w G) as U.
  destruct (build e v) as [v1|], (build e w) as [w1|]; cbn in U; try contradiction; cbn [obind]; [|exact I].
  pose proof U as [A L]. rewrite (ag_ctl _ _ _ _ A) in *. cbv zeta.
  destruct (s_qp e (vsize (qc (m_qp (ctl w1)))) (nrEq (ctl w1)) (nrIneq (ctl w1)) (m_qp (ctl w1))) as [ok r].
  set (m := set_times (set_sol (ctl w1) r) (Some (s_t2 e - s_t1 e)%Qc) (sabTime (ctl w1))).
  pose proof (checkDelete_local (set_ctl v1 m) (set_ctl w1 m) (good_set v1 w1 m m U (L : lists_in C K m) eq_refl)) as D.
  assert (W : opt_agree good (if ok then updateResults (checkDelete (set_ctl v1 m)) else Some (checkDelete (set_ctl v1 m)))
                             (if ok then updateResults (checkDelete (set_ctl w1 m)) else Some (checkDelete (set_ctl w1 m)))).
  { destruct ok; [apply updateResults_local; exact D|exact D]. }
  destruct (if ok then updateResults (checkDelete (set_ctl v1 m)) else Some (checkDelete (set_ctl v1 m))) as [v4|],
           (if ok then updateResults (checkDelete (set_ctl w1 m)) else Some (checkDelete (set_ctl w1 m))) as [w4|]; cbn in W; try contradiction; cbn [obind opt_agree fst snd]; [|exact I].
  split; [reflexivity|]. destruct W as [A4 L4]. rewrite (ag_ctl _ _ _ _ A4) in *. apply good_set; [split; [exact A4|rewrite (ag_ctl _ _ _ _ A4); exact L4]|exact L4|reflexivity].
Qed.
Lemma of_opt_agree {A} (R : A -> A -> Prop) a b : opt_agree R a b -> out_agree R (of_opt a) (of_opt b).
Proof using. destruct a, b; cbn; auto. Qed.
(** a call on the controller, in two programs that agree on its objects *)
Lemma step_local v w o : good v w -> is_shared o = false -> adds_own C K o -> out_agree good (step v o) (step w o).
Proof using.
  intros G SH AO. pose proof G as [A L]. destruct o; try discriminate SH; cbn [step].
  - apply of_opt_agree. apply construct_local. exact G.
  - apply of_opt_agree. apply initController_local. exact G.
  - unfold with_cost. cbn in AO. rewrite (ag_hcost _ _ _ _ A i AO). destruct (0 <? hcost w i); [apply addCost_local; assumption|exact G].
  - unfold with_con. cbn in AO. rewrite (ag_hcon _ _ _ _ A i AO). destruct (0 <? hcon w i); [apply addConstraint_local; assumption|exact G].
  - unfold with_cost. destruct (erase_first i (spCost (ctl v))) as [l|] eqn:E.
    + destruct (erase_incl _ _ _ E) as [Hi _]. pose proof L as [_ [_ [_ [_ L5]]]]. rewrite (ag_hcost _ _ _ _ A i (L5 i Hi)).
      destruct (0 <? hcost w i); [apply removeCost_local|]; exact G.
    + assert (E1 : removeCost v i = v) by (unfold removeCost; rewrite E; reflexivity).
      assert (E2 : removeCost w i = w) by (unfold removeCost; rewrite <- (ag_ctl _ _ _ _ A), E; reflexivity).
      rewrite E1, E2. destruct (0 <? hcost v i), (0 <? hcost w i); exact G.
  - unfold with_con. destruct (erase_first i (spC (ctl v))) as [l|] eqn:E.
    + destruct (erase_incl _ _ _ E) as [Hi _]. pose proof L as [L1 _]. rewrite (ag_hcon _ _ _ _ A i (L1 i Hi)).
      destruct (0 <? hcon w i); [apply of_opt_agree, removeConstraint_local|]; exact G.
    + assert (E1 : removeConstraint v i = Some v) by (unfold removeConstraint; rewrite E; reflexivity).
      assert (E2 : removeConstraint w i = Some w) by (unfold removeConstraint; rewrite <- (ag_ctl _ _ _ _ A), E; reflexivity).
      rewrite E1, E2. destruct (0 <? hcon v i), (0 <? hcon w i); exact G.
  - unfold clearCosts. apply good_set; [exact G| |rewrite (ag_ctl _ _ _ _ A); reflexivity]. destruct L as [L1 [L2 [L3 [L4 _]]]]. repeat split; cbn; auto; contradiction.
  - apply of_opt_agree. apply clearConstraints_local. exact G.
  - apply good_set; [exact G|exact L|rewrite (ag_ctl _ _ _ _ A); reflexivity].
  - pose proof (solve_local e v w G) as S. destruct (solve e v) as [[b v']|], (solve e w) as [[b' w']|]; cbn in S |- *; try contradiction; [apply S|exact I].
  - apply good_set; [exact G| |rewrite (ag_ctl _ _ _ _ A); reflexivity]. unfold resetX0Cost. destruct (m_is (ctl v)); exact L.
  - apply good_set; [exact G| |rewrite (ag_ctl _ _ _ _ A); reflexivity]. unfold resetX0Bounds. destruct (m_is (ctl v)); exact L.
Qed.
End Local.

(** ** Calls on the controller: what they write *)
Lemma update_cons_frame ps l : forall f g, update_cons ps l f = Some g -> forall i, ~ In i l -> g i = f i.
Proof.
  unfold update_cons. induction l as [|a t IH]; intros f g H i Hi; cbn in H; [injection H as <-; reflexivity|].
  destruct (c_update ps (f a)); cbn in H; [|discriminate H]. rewrite (IH _ _ H i) by (intro Q; apply Hi; right; exact Q).
  unfold upd. destruct (Nat.eqb_spec i a) as [->|]; [destruct Hi; left; reflexivity|reflexivity].
Qed.
Lemma update_costs_frame ps l : forall f g, update_costs ps l f = Some g -> forall i, ~ In i l -> g i = f i.
Proof.
  unfold update_costs. induction l as [|a t IH]; intros f g H i Hi; cbn in H; [injection H as <-; reflexivity|].
  destruct (k_update ps (f a)); cbn in H; [|discriminate H]. rewrite (IH _ _ H i) by (intro Q; apply Hi; right; exact Q).
  unfold upd. destruct (Nat.eqb_spec i a) as [->|]; [destruct Hi; left; reflexivity|reflexivity].
Qed.
(** the same program but for the members of the controller *)
Definition same_heap (v w : world) : Prop :=
  wps v = wps w /\ ncon v = ncon w /\ wcon v = wcon w /\ hcon v = hcon w /\ ncost v = ncost w /\ wcost v = wcost w /\ hcost v = hcost w.
Lemma same_heap_set v m : same_heap (set_ctl v m) v. Proof. repeat split. Qed.
Lemma same_heap_trans a b c : same_heap a b -> same_heap b c -> same_heap a c.
Proof. intros [? [? [? [? [? [? ?]]]]]] [? [? [? [? [? [? ?]]]]]]. repeat split; congruence. Qed.
Lemma initController_heap j w p w' : initializeController j w p = Some w' -> same_heap w' w.
Proof.
  unfold initializeController. destruct (clearConstraintMatrices _ _) as [m|]; cbn; [|discriminate]. intro H. injection H as <-. apply same_heap_set.
Qed.
Lemma removeConstraint_heap w i w' : removeConstraint w i = Some w' -> same_heap w' w.
Proof.
  unfold removeConstraint. destruct (erase_first i (spC (ctl w))); [|intro H; injection H as <-; repeat split].
  destruct (constraintType _); destruct (erase_first i _); cbn; intro H; try discriminate H; injection H as <-; apply same_heap_set.
Qed.
(** what a solve leaves behind outside the controller *)
Record solve_frame (w w' : world) : Prop := {
  fr_n : ncon w' = ncon w /\ ncost w' = ncost w /\ hcon w' = hcon w /\ hcost w' = hcost w;
  fr_con : forall i, ~ In i (spC (ctl w)) -> wcon w' i = wcon w i;
  fr_cost : forall i, ~ In i (spCost (ctl w)) -> wcost w' i = wcost w i;
  fr_ps : exists p s, m_ps (ctl w) = Some p /\ ensureUpdated (wps w p) = Some s /\ wps w' = upd (wps w) p s
}.
Lemma updateSystem_frame j w w' : lmpc_updateSystem j w = Some w' -> solve_frame w w'.
Proof.
  unfold lmpc_updateSystem. destruct (m_ps (ctl w)) as [p|] eqn:Ep; [|discriminate]. destruct (ensureUpdated (wps w p)) as [ps|] eqn:Eu; cbn [obind]; [|discriminate].
  destruct (updateNr _ _) as [m1|] eqn:En; cbn [obind]; [|discriminate].
  assert (L : spC m1 = spC (ctl w) /\ spCost m1 = spCost (ctl w)) by (unfold updateNr in En; destruct (_ && _); [|discriminate En]; injection En as <-; split; reflexivity).
  destruct L as [LC LK]. cbn [updateConstraintMatrixSize set_qpm spC spCost]. rewrite LC, LK.
  destruct (update_cons ps (spC (ctl w)) (wcon w)) as [f|] eqn:Ec; cbn [obind]; [|discriminate].
  destruct (update_costs ps (spCost (ctl w)) (wcost w)) as [g|] eqn:Ek; cbn [obind]; [|discriminate]. intro H. injection H as <-.
  split; cbn; [repeat split|apply (update_cons_frame _ _ _ _ Ec)|apply (update_costs_frame _ _ _ _ Ek)|]. exists p, ps. auto.
Qed.
Lemma solve_frame_heap a b c : solve_frame a b -> same_heap c b -> solve_frame a c.
Proof.
  intros [[N1 [N2 [N3 N4]]] FC FK [p [s [P1 [P2 P3]]]]] [? [? [H3 [? [? [H6 ?]]]]]].
  split; [repeat split; congruence|intros; rewrite H3; auto|intros; rewrite H6; auto|]. exists p, s. repeat split; congruence.
Qed.
Lemma solve_frame_ok e w b w' : solve e w = Some (b, w') -> solve_frame w w'.
Proof.
  unfold solve, build. destruct (lmpc_updateSystem (s_junk e) w) as [w1|] eqn:E; cbn [obind]; [|discriminate].
  apply updateSystem_frame in E. destruct (m_ps (ctl w1)) as [p|]; cbn [obind]; [|discriminate].
  destruct (match m_is (ctl w1) with None => _ | Some _ => _ end) as [q|]; cbn [obind]; [|discriminate]. cbv zeta.
  set (w2 := set_ctl w1 (set_qpm (ctl w1) q)). assert (F2 : same_heap w2 w1) by apply same_heap_set. clearbody w2.
  destruct (s_qp e _ _ _ _) as [ok r].
  set (w3 := checkDelete _). assert (F3 : same_heap w3 w2) by (repeat split). clearbody w3.
  assert (F4 : forall w4, (if ok then updateResults w3 else Some w3) = Some w4 -> same_heap w4 w3).
  { intros w4 H. destruct ok; [|injection H as <-; repeat split]. unfold updateResults in H. destruct (m_ps (ctl w3)); [|discriminate H]. destruct (m_is (ctl w3)).
    - destruct (tail _ _); cbn in H; [|discriminate H]. destruct (initialState w3); cbn in H; [|discriminate H]. destruct (preview _ _ _); cbn in H; [|discriminate H]. injection H as <-. apply same_heap_set.
    - destruct (preview _ _ _); cbn in H; [|discriminate H]. injection H as <-. apply same_heap_set. }
  destruct (if ok then updateResults w3 else Some w3) as [w4|]; cbn; [|discriminate]. specialize (F4 w4 eq_refl). intro H. injection H as <- <-.
  apply (solve_frame_heap w w1); [exact E|]. apply (same_heap_trans _ w4); [apply same_heap_set|]. apply (same_heap_trans _ w3); [exact F4|]. apply (same_heap_trans _ w2); assumption.
Qed.
Lemma step_frame w o : is_shared o = false ->
  match step w o with
  | Ok w' | Throw _ w' =>
      (ncon w' = ncon w /\ ncost w' = ncost w /\ hcon w' = hcon w /\ hcost w' = hcost w) /\
      (forall i, ~ In i (spC (ctl w)) -> (forall j, o <> OAddCon j i) -> wcon w' i = wcon w i) /\
      (forall i, ~ In i (spCost (ctl w)) -> (forall j, o <> OAddCost j i) -> wcost w' i = wcost w i) /\
      match o, m_ps (ctl w) with
      | OSolve _, Some p => exists s, ensureUpdated (wps w p) = Some s /\ wps w' = upd (wps w) p s
      | OSolve _, None => False
      | _, _ => wps w' = wps w
      end
  | UB => True
  end.
Proof.
  intro SH.
  assert (HP : forall w', same_heap w' w -> (forall e, o <> OSolve e) ->
      (ncon w' = ncon w /\ ncost w' = ncost w /\ hcon w' = hcon w /\ hcost w' = hcost w) /\
      (forall i, ~ In i (spC (ctl w)) -> (forall j, o <> OAddCon j i) -> wcon w' i = wcon w i) /\
      (forall i, ~ In i (spCost (ctl w)) -> (forall j, o <> OAddCost j i) -> wcost w' i = wcost w i) /\
      match o, m_ps (ctl w) with
      | OSolve _, Some p => exists s, ensureUpdated (wps w p) = Some s /\ wps w' = upd (wps w) p s
      | OSolve _, None => False
      | _, _ => wps w' = wps w
      end).
  { intros w' [H1 [H2 [H3 [H4 [H5 [H6 H7]]]]]] NS. split; [repeat split; assumption|]. split; [intros; rewrite H3; reflexivity|]. split; [intros; rewrite H6; reflexivity|].
    destruct o; try exact H1. destruct (NS e eq_refl). }
  destruct o; try discriminate SH; cbn [step].
  - destruct (construct j k r w) as [w'|] eqn:E; cbn [of_opt]; [|exact I]. apply HP; [|discriminate].
    destruct k; cbn in E; try (injection E as <-; apply same_heap_set); apply initController_heap in E; (eapply same_heap_trans; [exact E|apply same_heap_set]).
  - destruct (initializeController j w p) as [w'|] eqn:E; cbn [of_opt]; [|exact I]. apply HP; [|discriminate]. apply initController_heap in E. exact E.
  - unfold with_cost. destruct (0 <? hcost w i); [|apply HP; [repeat split|discriminate]]. unfold addCost. destruct (m_ps (ctl w)) as [p|]; [|exact I].
    destruct (initializeCost j (wps w p) (wcost w i)) as [c|x c|]; [| |exact I]; cbn; (split; [repeat split|]); (split; [reflexivity|]); (split; [|reflexivity]);
      intros k _ Nk; unfold upd; destruct (Nat.eqb_spec k i) as [->|]; try reflexivity; destruct (Nk j eq_refl).
  - unfold with_con. destruct (0 <? hcon w i); [|apply HP; [repeat split|discriminate]]. unfold addConstraint. destruct (m_ps (ctl w)) as [p|]; [|exact I].
    destruct (initializeConstraint j (wps w p) (wcon w i)) as [c|x c|]; [| |exact I].
    + assert (Q : forall w', addConstraintByType (set_con w i c) i = Some w' -> same_heap w' (set_con w i c)).
      { intros w'. unfold addConstraintByType. destruct (constraintType _); try (destruct (fits_int _)); intro H; try discriminate H; injection H as <-; apply same_heap_set. }
      destruct (addConstraintByType (set_con w i c) i) as [w'|]; cbn [of_opt]; [|exact I]. destruct (Q w' eq_refl) as [H1 [H2 [H3 [H4 [H5 [H6 H7]]]]]]. cbn in H1, H2, H3, H4, H5, H6, H7.
      split; [repeat split; assumption|]. split; [|split; [intros; rewrite H6; reflexivity|exact H1]].
      intros k _ Nk. rewrite H3. unfold upd. destruct (Nat.eqb_spec k i) as [->|]; [destruct (Nk j eq_refl)|reflexivity].
    + cbn. split; [repeat split|]. split; [|split; reflexivity]. intros k _ Nk. unfold upd. destruct (Nat.eqb_spec k i) as [->|]; [destruct (Nk j eq_refl)|reflexivity].
  - unfold with_cost. destruct (0 <? hcost w i); apply HP; try discriminate; [|repeat split]. unfold removeCost. destruct (erase_first i _); [apply same_heap_set|repeat split].
  - unfold with_con. destruct (0 <? hcon w i); [|apply HP; [repeat split|discriminate]]. destruct (removeConstraint w i) as [w'|] eqn:E; cbn [of_opt]; [|exact I].
    apply HP; [|discriminate]. apply removeConstraint_heap in E. exact E.
  - apply HP; [apply same_heap_set|discriminate].
  - destruct (clearConstraints w) as [w'|] eqn:E; cbn [of_opt]; [|exact I]. apply HP; [|discriminate]. unfold clearConstraints in E. destruct (m_ps (ctl w)); [|discriminate E].
    destruct (clearConstraintMatrices _ _); cbn in E; [|discriminate E]. injection E as <-. apply same_heap_set.
  - apply HP; [apply same_heap_set|discriminate].
  - destruct (solve e w) as [[b w']|] eqn:E; [|exact I]. apply solve_frame_ok in E. destruct E as [[N1 [N2 [N3 N4]]] FC FK [p [s [P1 [P2 P3]]]]].
    split; [repeat split; assumption|]. split; [intros; apply FC; assumption|]. split; [intros; apply FK; assumption|]. rewrite P1. exists s. auto.
  - apply HP; [apply same_heap_set|discriminate].
  - apply HP; [apply same_heap_set|discriminate].
Qed.

(** ** Shared calls *)
Lemma shared_local C K v w o : is_shared o = true -> concerns C K o = true -> agree C K v w ->
  out_agree (fun a b => agree C K a b /\ ctl a = ctl v) (step v o) (step w o).
Proof.
  intros SH CO A. pose proof A as [E1 E2 E3 E4 E5 E6 E7 E8].
  destruct o; try discriminate SH; cbn [step]; cbn in CO.
  - rewrite E1. destruct (ps_step (wps w p) o) as [s|e s|]; cbn; try exact I; try (split; [reflexivity|]); (split; [|reflexivity]); split; cbn; auto; rewrite E1; reflexivity.
  - cbn. split; [|reflexivity]. split; cbn; auto; rewrite E2; [apply (agree_upd C); assumption|apply (agree_upd C); assumption].
  - unfold with_con. rewrite (E5 i CO). destruct (0 <? hcon w i); cbn; [|split; [exact A|reflexivity]]. split; [|reflexivity]. split; cbn; auto. try rewrite (E5 i CO). apply (agree_upd C). exact E5.
  - unfold with_con. rewrite (E5 i CO). destruct (0 <? hcon w i); cbn; [|split; [exact A|reflexivity]]. split; [|reflexivity]. split; cbn; auto. try rewrite (E5 i CO). apply (agree_upd C). exact E5.
  - unfold with_con. rewrite (E5 i CO). destruct (0 <? hcon w i); cbn; [|split; [exact A|reflexivity]]. rewrite (E4 i CO).
    destruct (c_autoSpan j (wcon w i)) as [s|e s|]; cbn; try exact I; try (split; [reflexivity|]); (split; [|reflexivity]); split; cbn; auto; apply (agree_upd C); exact E4.
  - cbn. split; [|reflexivity]. split; cbn; auto; rewrite E3; [apply (agree_upd K); assumption|apply (agree_upd K); assumption].
  - unfold with_cost. rewrite (E7 i CO). destruct (0 <? hcost w i); cbn; [|split; [exact A|reflexivity]]. split; [|reflexivity]. split; cbn; auto. try rewrite (E7 i CO). apply (agree_upd K). exact E7.
  - unfold with_cost. rewrite (E7 i CO). destruct (0 <? hcost w i); cbn; [|split; [exact A|reflexivity]]. split; [|reflexivity]. split; cbn; auto. try rewrite (E7 i CO). apply (agree_upd K). exact E7.
  - unfold with_cost. rewrite (E7 i CO). destruct (0 <? hcost w i); cbn; [|split; [exact A|reflexivity]]. rewrite (E6 i CO).
    destruct (k_autoSpan j (wcost w i)) as [s|e s|]; cbn; try exact I; try (split; [reflexivity|]); (split; [|reflexivity]); split; cbn; auto; apply (agree_upd K); exact E6.
  - unfold with_cost. rewrite (E7 i CO). destruct (0 <? hcost w i); cbn; [|split; [exact A|reflexivity]]. rewrite (E6 i CO).
    destruct (k_weights (wcost w i) v0) as [s|e s|]; cbn; try exact I; try (split; [reflexivity|]); (split; [|reflexivity]); split; cbn; auto; apply (agree_upd K); exact E6.
  - unfold with_cost. rewrite (E7 i CO). destruct (0 <? hcost w i); cbn; [|split; [exact A|reflexivity]]. split; [|reflexivity]. split; cbn; auto. rewrite (E6 i CO). apply (agree_upd K). exact E6.
Qed.
(** a call on an object of another controller *)
Lemma shared_frame C K v o : is_shared o = true -> concerns C K o = false ->
  match step v o with Ok v' | Throw _ v' => agree C K v' v | UB => True end.
Proof.
  intros SH CO.
  assert (RF : agree C K v v) by (split; auto).
  assert (UC : forall (f : nat -> constr) i x, C i = false -> forall k, C k = true -> upd f i x k = f k) by (intros f i x Hi k Hk; unfold upd; destruct (Nat.eqb_spec k i) as [->|]; congruence).
  assert (UH : forall (f : nat -> nat) i x, C i = false -> forall k, C k = true -> upd f i x k = f k) by (intros f i x Hi k Hk; unfold upd; destruct (Nat.eqb_spec k i) as [->|]; congruence).
  assert (VC : forall (f : nat -> cost) i x, K i = false -> forall k, K k = true -> upd f i x k = f k) by (intros f i x Hi k Hk; unfold upd; destruct (Nat.eqb_spec k i) as [->|]; congruence).
  assert (VH : forall (f : nat -> nat) i x, K i = false -> forall k, K k = true -> upd f i x k = f k) by (intros f i x Hi k Hk; unfold upd; destruct (Nat.eqb_spec k i) as [->|]; congruence).
  destruct o; try discriminate SH; cbn [step]; cbn in CO; try discriminate CO; unfold with_con, with_cost.
  - destruct (0 <? hcon v i); [|exact RF]. split; cbn; auto.
  - destruct (0 <? hcon v i); [|exact RF]. split; cbn; auto.
  - destruct (0 <? hcon v i); [|exact RF]. destruct (c_autoSpan j (wcon v i)); cbn; try exact I; split; cbn; auto.
  - destruct (0 <? hcost v i); [|exact RF]. split; cbn; auto.
  - destruct (0 <? hcost v i); [|exact RF]. split; cbn; auto.
  - destruct (0 <? hcost v i); [|exact RF]. destruct (k_autoSpan j (wcost v i)); cbn; try exact I; split; cbn; auto.
  - destruct (0 <? hcost v i); [|exact RF]. destruct (k_weights (wcost v i) v0); cbn; try exact I; split; cbn; auto.
  - destruct (0 <? hcost v i); [|exact RF]. split; cbn; auto.
Qed.

Lemma shared_ctl v m o : is_shared o = true -> step (set_ctl v m) o = out_map (fun x => set_ctl x m) (step v o).
Proof.
  intro SH. destruct o; try discriminate SH; cbn [step]; unfold with_con, with_cost; cbn [set_ctl hcon hcost wps wcon wcost ncon ncost].
  - destruct (ps_step (wps v p) o); reflexivity.
  - reflexivity.
  - destruct (0 <? hcon v i); reflexivity.
  - destruct (0 <? hcon v i); reflexivity.
  - destruct (0 <? hcon v i); [|reflexivity]. destruct (c_autoSpan j (wcon v i)); reflexivity.
  - reflexivity.
  - destruct (0 <? hcost v i); reflexivity.
  - destruct (0 <? hcost v i); reflexivity.
  - destruct (0 <? hcost v i); [|reflexivity]. destruct (k_autoSpan j (wcost v i)); reflexivity.
  - destruct (0 <? hcost v i); [|reflexivity]. destruct (k_weights (wcost v i) v0); reflexivity.
  - destruct (0 <? hcost v i); reflexivity.
Qed.

(** ** The program and controller [c] alone *)
Section Simulation.
Variables (n c : nat) (C K : nat -> bool).
Hypothesis Hc : c < n.
Notation nC := (fun i => negb (C i)).
Notation nK := (fun i => negb (K i)).
Record sim (W : mworld) (w : world) : Prop := {
  sm_ag : agree C K (set_ctl (base W) (mctl W c)) w;
  sm_own : lists_in C K (mctl W c);
  sm_foreign : forall d, d < n -> d <> c -> lists_in nC nK (mctl W d)
}.
Lemma cnt0 i l : ~ In i l -> cnt i l = 0.
Proof using. intro H. unfold cnt. apply count_occ_not_In. exact H. Qed.
Lemma others0 k f : (forall a, a < k -> a <> c -> f a = 0) -> others k c f = 0.
Proof using.
  clear Hc. induction k as [|k IH]; intro H; cbn; [reflexivity|]. rewrite IH by (intros; apply H; lia). destruct (Nat.eqb_spec k c) as [->|Ne]; [reflexivity|]. apply H; lia.
Qed.
Lemma not_in_foreign (P : nat -> bool) i l : (forall k, In k l -> negb (P k) = true) -> P i = true -> ~ In i l.
Proof using. intros H Pi Hi. specialize (H i Hi). rewrite Pi in H. discriminate H. Qed.
Lemma view_agree W w : sim W w -> agree C K (view n c W) w.
Proof using.
  intros [[E1 E2 E3 E4 E5 E6 E7 E8] SO SF]. split; cbn; auto; cbn in *.
  - intros i Hi. rewrite others0; [rewrite Nat.add_0_r; apply E5; exact Hi|]. intros d Hd Ne. destruct (SF d Hd Ne) as [L1 [L2 [L3 [L4 L5]]]].
    unfold held_con. rewrite !cnt0; [reflexivity|apply (not_in_foreign C)|apply (not_in_foreign C)|apply (not_in_foreign C)|apply (not_in_foreign C)]; assumption.
  - intros i Hi. rewrite others0; [rewrite Nat.add_0_r; apply E7; exact Hi|]. intros d Hd Ne. destruct (SF d Hd Ne) as [L1 [L2 [L3 [L4 L5]]]].
    unfold held_cost. apply cnt0. apply (not_in_foreign K); assumption.
Qed.
Definition run1 (o : outcome world) (t : world -> option world) : option world := match o with Ok w | Throw _ w => t w | UB => None end.
Lemma sim_step W w a : sim W w ->
  (forall d j i, a = MCtl d (OAddCon j i) -> C i = Nat.eqb d c) -> (forall d j i, a = MCtl d (OAddCost j i) -> K i = Nat.eqb d c) ->
  match mstep n W a with
  | Ok W' | Throw _ W' => exists w', run w (alone1 n c C K W a) = Some w' /\ sim W' w'
  | UB => True
  end.
Proof using Hc.
  intros S SC SK. pose proof S as [A SO SF]. destruct a as [o|d o]; cbn [mstep alone1].
  - destruct (is_shared o) eqn:SH; [|exists w; split; [reflexivity|exact S]]. cbn [andb].
    pose proof (shared_ctl (base W) (mctl W c) o SH) as SCt.
    destruct (concerns C K o) eqn:CO.
    + pose proof (shared_local C K _ w o SH CO A) as SL. rewrite SCt in SL.
      destruct (step (base W) o) as [x|e x|]; cbn [out_map] in SL |- *; [| |exact I];
        (cbn [run]; destruct (step w o) as [y|f y|]; cbn in SL; try contradiction; exists y; (split; [reflexivity|]));
        [destruct SL as [SL _]|destruct SL as [_ [SL _]]]; (split; cbn; [|exact SO|exact SF]); destruct SL as [E1 E2 E3 E4 E5 E6 E7 E8]; split; cbn in *; auto.
    + pose proof (shared_frame C K (base W) o SH CO) as FR. destruct (step (base W) o) as [x|e x|]; cbn [out_map]; [| |exact I];
        (exists w; split; [reflexivity|]); (split; cbn; [|exact SO|exact SF]); destruct FR as [F1 F2 F3 F4 F5 F6 F7 F8], A as [E1 E2 E3 E4 E5 E6 E7 E8];
        split; cbn in *; auto; try congruence; intros i Hi; [rewrite (F4 i Hi)|rewrite (F5 i Hi)|rewrite (F6 i Hi)|rewrite (F7 i Hi)|rewrite (F4 i Hi)|rewrite (F5 i Hi)|rewrite (F6 i Hi)|rewrite (F7 i Hi)]; auto.
  - destruct (d <? n) eqn:Hd; [|exists w; split; [reflexivity|exact S]]. apply Nat.ltb_lt in Hd. destruct (is_shared o) eqn:SH; [exists w; split; [reflexivity|exact S]|]. cbn [andb negb].
    destruct (Nat.eqb_spec d c) as [->|Ne].
    + (* a call on [c] *)
      destruct (can_write W o) eqn:CW.
      * assert (AO : adds_own C K o).
        { destruct o; cbn; try exact I; [rewrite (SK c j i eq_refl)|rewrite (SC c j i eq_refl)]; apply Nat.eqb_refl. }
        pose proof (step_local C K (view n c W) w o (conj (view_agree W w S) SO) SH AO) as SL.
        pose proof (step_frame (view n c W) o SH) as FR.
        destruct (step (view n c W) o) as [x|e x|]; cbn [out_map]; [| |exact I];
          (cbn [run]; destruct (step w o) as [y|f y|]; cbn in SL; try contradiction; exists y; (split; [reflexivity|]));
          [destruct SL as [SL LX]|destruct SL as [_ [SL LX]]]; destruct FR as [[F1 [F2 [F3 F4]]] _];
          pose proof (view_agree W w S) as [V1 V2 V3 V4 V5 V6 V7 V8]; destruct A as [E1 E2 E3 E4 E5 E6 E7 E8]; destruct SL as [G1 G2 G3 G4 G5 G6 G7 G8]; cbn in *;
          (split; cbn; [| |intros d Hd' Nd; unfold upd; destruct (Nat.eqb_spec d c); [contradiction|apply SF; assumption]]);
          (replace (upd (mctl W) c (ctl x) c) with (ctl x) by (unfold upd; rewrite Nat.eqb_refl; reflexivity)); try exact LX;
          split; cbn; auto; intros i Hi; (rewrite <- (G5 i Hi), F3, (V5 i Hi); apply E5; exact Hi) || (rewrite <- (G7 i Hi), F4, (V7 i Hi); apply E7; exact Hi).
      * exists w. split; [|exact S]. cbn [run].
        assert (E : step w o = Ok w); [|rewrite E; reflexivity].
        pose proof (ag_ctl _ _ _ _ A) as EC. cbn in EC.
        destruct o; try discriminate CW; try discriminate SH; unfold can_write in CW; cbn [step]; unfold with_con, with_cost.
        -- assert (KI : K i = true) by (rewrite (SK c j i eq_refl); apply Nat.eqb_refl). rewrite <- (ag_hcost _ _ _ _ A i KI). cbn [set_ctl base hcost]. rewrite CW. reflexivity.
        -- assert (CI : C i = true) by (rewrite (SC c j i eq_refl); apply Nat.eqb_refl). rewrite <- (ag_hcon _ _ _ _ A i CI). cbn [set_ctl base hcon]. rewrite CW. reflexivity.
        -- destruct (K i) eqn:KI; [rewrite <- (ag_hcost _ _ _ _ A i KI); cbn [set_ctl base hcost]; rewrite CW; reflexivity|].
           destruct (0 <? hcost w i); [|reflexivity]. unfold removeCost. destruct (erase_first i (spCost (ctl w))) as [l|] eqn:E; [|reflexivity].
           apply erase_incl in E as [Hi _]. rewrite <- EC in Hi. destruct SO as [_ [_ [_ [_ L5]]]]. rewrite (L5 i Hi) in KI. discriminate KI.
        -- destruct (C i) eqn:CI; [rewrite <- (ag_hcon _ _ _ _ A i CI); cbn [set_ctl base hcon]; rewrite CW; reflexivity|].
           destruct (0 <? hcon w i); [|reflexivity]. unfold removeConstraint. destruct (erase_first i (spC (ctl w))) as [l|] eqn:E; [|reflexivity].
           apply erase_incl in E as [Hi _]. rewrite <- EC in Hi. destruct SO as [L1 _]. rewrite (L1 i Hi) in CI. discriminate CI.
    + (* a call on another controller *)
      destruct (can_write W o) eqn:CW.
      2:{ exists w. split; [|exact S]. destruct o; try discriminate CW; reflexivity. }
      assert (AO : adds_own nC nK o).
      { apply Nat.eqb_neq in Ne. destruct o; cbn; try exact I; [rewrite (SK d j i eq_refl)|rewrite (SC d j i eq_refl)]; rewrite Ne; reflexivity. }
      assert (GV : good nC nK (view n d W) (view n d W)) by (split; [split; auto|cbn; apply SF; assumption]).
      pose proof (step_local nC nK _ _ o GV SH AO) as SL. pose proof (step_frame (view n d W) o SH) as FR.
      destruct (SF d Hd Ne) as [L1 [L2 [L3 [L4 L5]]]].
      assert (NI : forall i, C i = true -> (~ In i (spC (mctl W d))) /\ (forall j, o <> OAddCon j i)).
      { intros i Hi. split; [apply (not_in_foreign C); assumption|]. intros j ->. cbn in AO. rewrite Hi in AO. discriminate AO. }
      assert (NK : forall i, K i = true -> (~ In i (spCost (mctl W d))) /\ (forall j, o <> OAddCost j i)).
      { intros i Hi. split; [apply (not_in_foreign K); assumption|]. intros j ->. cbn in AO. rewrite Hi in AO. discriminate AO. }
      assert (MAIN : forall x, good nC nK x x -> 
        ((ncon x = ncon (view n d W) /\ ncost x = ncost (view n d W) /\ hcon x = hcon (view n d W) /\ hcost x = hcost (view n d W)) /\
        (forall i, ~ In i (spC (ctl (view n d W))) -> (forall j, o <> OAddCon j i) -> wcon x i = wcon (view n d W) i) /\
        (forall i, ~ In i (spCost (ctl (view n d W))) -> (forall j, o <> OAddCost j i) -> wcost x i = wcost (view n d W) i) /\
        match o, m_ps (ctl (view n d W)) with
        | OSolve _, Some p => exists s, ensureUpdated (wps (view n d W) p) = Some s /\ wps x = upd (wps (view n d W)) p s
        | OSolve _, None => False
        | _, _ => wps x = wps (view n d W)
        end) ->
        exists w', run w (match o, m_ps (mctl W d) with OSolve _, Some p => [OPs p PEnsureUpdated] | _, _ => [] end) = Some w' /\ sim (put d W x) w').
      { intros x [_ LX] [[F1 [F2 _]] [FC [FK FP]]]. cbn in F1, F2, FC, FK, FP. destruct A as [E1 E2 E3 E4 E5 E6 E7 E8]. cbn in E1, E2, E3, E4, E5, E6, E7, E8.
        assert (GEN : forall w', wps x = wps w' -> ncon w' = ncon w -> ncost w' = ncost w -> wcon w' = wcon w -> hcon w' = hcon w -> wcost w' = wcost w -> hcost w' = hcost w -> ctl w' = ctl w -> sim (put d W x) w').
        { intros w' Hp H1 H2 H3 H4 H5 H6 H7.
          assert (CC : mctl (put d W x) c = mctl W c) by (cbn; unfold upd; rewrite (proj2 (Nat.eqb_neq c d) (not_eq_sym Ne)); reflexivity).
          split; rewrite ?CC.
          - split; cbn; try congruence.
            + intros i Hi. destruct (NI i Hi) as [N1 N2]. rewrite (FC i N1 N2), H3. apply E4. exact Hi.
            + intros i Hi. rewrite H4. apply E5. exact Hi.
            + intros i Hi. destruct (NK i Hi) as [N1 N2]. rewrite (FK i N1 N2), H5. apply E6. exact Hi.
            + intros i Hi. rewrite H6. apply E7. exact Hi.
          - exact SO.
          - intros a Ha Na. cbn. unfold upd. destruct (Nat.eqb a d); [exact LX|apply SF; assumption]. }
        destruct o; try (exists w; split; [reflexivity|]; apply GEN; try reflexivity; cbn in FP; congruence).
        destruct (m_ps (mctl W d)) as [p|]; [|contradiction]. destruct FP as [s [F5 F6]]. exists (set_ps w p s). split.
        - cbn [run step ps_step]. rewrite <- E1, F5. reflexivity.
        - apply GEN; try reflexivity. cbn. rewrite F6, E1. reflexivity. }
      destruct (step (view n d W) o) as [x|e x|]; cbn [out_map out_agree] in *; [| |exact I].
      * apply MAIN; assumption.
      * apply MAIN; [apply SL|exact FR].
Qed.
Lemma run_app h1 : forall h2 w, run w (h1 ++ h2) = match run w h1 with Some w' => run w' h2 | None => None end.
Proof using. induction h1 as [|o t IH]; intros h2 w; cbn; [reflexivity|]. destruct (step w o); try apply IH. reflexivity. Qed.
Lemma sim_run h : forall W w W', sim W w -> separated c C K h -> mrun n W h = Some W' ->
  exists w', run w (alone n c C K W h) = Some w' /\ sim W' w'.
Proof using Hc.
  induction h as [|a t IH]; intros W w W' S [SC SK] R; cbn in R |- *.
  - injection R as <-. exists w. split; [reflexivity|exact S].
  - pose proof (sim_step W w a S (fun d j i H => SC d j i (or_introl H)) (fun d j i H => SK d j i (or_introl H))) as ST.
    assert (SP : separated c C K t) by (split; [intros d j i H; apply (SC d j i); right; exact H|intros d j i H; apply (SK d j i); right; exact H]).
    destruct (mstep n W a) as [W1|e W1|]; [| |discriminate R]; destruct ST as [w1 [R1 S1]];
      destruct (IH W1 w1 W' S1 SP R) as [w' [R' S']]; exists w'; (split; [rewrite run_app, R1; exact R'|exact S']).
Qed.
Lemma sim0 : sim mworld0 world0.
Proof using. split; [split; reflexivity| |intros d _ _]; repeat split; cbn; contradiction. Qed.
End Simulation.
