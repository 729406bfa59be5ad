(** Properties_Protocol.v -- C37: no call of the documented protocol is undefined; and what rejected calls leave
    behind (C13, C22 at the level of the controller). *)
From Verif Require Import Base Eigen Spec Preview SpecApi PreviewProofs AutoSpan AutoSpanProofs Constraints ConstraintProofs
  SpecConstraints ConstraintMeaning Checkers Costs CostProofs CostMeaning Controller Registry SpecController Assembly Results SpecProtocol Protocol
  Properties_Results.

(** ** C37 *)

Lemma world0_pinv D : pinv D world0.
Proof.
  split; cbn; try contradiction; try discriminate; try lia; try (split; [lia|reflexivity]).
  - split; cbn; try reflexivity; try contradiction; auto.
  - intros i. left. apply (new_con_virgin (DCtrlB eempty eempty)).
  - intros i. left. split; reflexivity.
Qed.

Lemma protocol_run n m N : sizes_fit n m N -> forall h w, pinv (dps n m N) w -> follows_protocol n m N w h ->
  exists w', run w h = Some w' /\ pinv (dps n m N) w'.
Proof.
  intros SF. induction h as [|o t IH]; intros w P F; cbn [run].
  - exists w. auto.
  - destruct F as [L F]. pose proof (step_ok n m N SF w o P L) as H. destruct (step w o); [apply IH; assumption..|contradiction].
Qed.

(** Every history of calls that follows the protocol is defined: no call reads or writes outside a matrix or a vector,
    combines operands of different sizes, overflows an int, dereferences a null preview system or an iterator past the
    end.  No bound on the sizes (below int), the number of objects or the number of calls. *)
Theorem C37_protocol_defined : forall n m N h,
  sizes_fit n m N -> follows_protocol n m N world0 h -> exists w, run world0 h = Some w.
Proof.
  intros n m N h SF F. destruct (protocol_run n m N SF h world0 (world0_pinv _) F) as [w [E _]]. eauto.
Qed.
(** ... and the next legal call is defined in each state reached: it returns or throws *)
Theorem C37_next_call_defined : forall n m N h w o,
  sizes_fit n m N -> follows_protocol n m N world0 h -> run world0 h = Some w -> legal n m N w o ->
  (exists w', step w o = Ok w') \/ (exists e w', step w o = Throw e w').
Proof.
  intros n m N h w o SF F E L. destruct (protocol_run n m N SF h world0 (world0_pinv _) F) as [w' [E' P]].
  assert (w' = w) by congruence. subst w'. pose proof (step_ok n m N SF w o P L) as H.
  destruct (step w o); [eauto..|contradiction].
Qed.
(** in particular solve: it builds a problem of the announced sizes and comes back *)
Theorem C37_solve_defined : forall n m N h w e p,
  sizes_fit n m N -> follows_protocol n m N world0 h -> run world0 h = Some w -> m_ps (ctl w) = Some p ->
  legal n m N w (OSolve e) -> exists b w', solve e w = Some (b, w').
Proof.
  intros n m N h w e p SF F E Ep L. destruct (C37_next_call_defined n m N h w (OSolve e) SF F E L) as [[w' H]|[x [w' H]]];
    cbn [step] in H; destruct (solve e w) as [[b v]|]; try discriminate; eauto.
Qed.

(** outside the protocol, calls are undefined: solve, addCost, addConstraint, clearConstraints before the controller
    has a system, solve on a system never set *)
Theorem C37_needs_system : forall w e j i,
  m_ps (ctl w) = None -> 0 < hcon w i -> 0 < hcost w i ->
  step w (OSolve e) = UB /\ step w (OAddCon j i) = UB /\ step w (OAddCost j i) = UB /\ step w OClearCons = UB.
Proof.
  intros w e j i E H1 H2. cbn [step]. unfold with_con, with_cost. apply Nat.ltb_lt in H1. apply Nat.ltb_lt in H2. rewrite H1, H2.
  unfold solve, build, lmpc_updateSystem, addConstraint, addCost, clearConstraints. rewrite E. repeat split.
Qed.
(** two control bound constraints registered together run past the end of the bounds (assert, or memory overwritten):
    the condition "at most one" of the protocol is needed *)
Theorem C37_two_bounds_undefined : forall w lb ub n i k l,
  n + nrConstr (wcon w i) = vsize lb -> 0 < nrConstr (wcon w k) -> vsize lb = vsize ub ->
  stack_bounds (wcon w) (i :: k :: l) (lb, ub, n) = None.
Proof.
  intros w lb ub n i k l E P EU. unfold stack_bounds. cbn [for_list].
  destruct (setSeg lb n (nrConstr (wcon w i)) (clb (wcon w i))) as [lb'|] eqn:E1; [|reflexivity]. cbn [obind].
  destruct (setSeg ub n (nrConstr (wcon w i)) (cub (wcon w i))) as [ub'|] eqn:E2; [|reflexivity]. cbn [obind].
  apply setSeg_inv in E1. destruct E1 as [? [? ->]]. unfold setSeg at 1. cbn [vsize].
  rewrite (proj2 (Nat.leb_gt _ _)); [reflexivity|]. lia.
Qed.

(** *** A history that follows the protocol: boolean test *)
Definition legalb (n m N : nat) (w : world) (o : op) : bool :=
  match o with
  | OPs p (PSystem s c b x k) =>
      if Nat.eqb (vsize b) (rows s) && Z.leb 1 k then Nat.eqb (cols s) n && Nat.eqb (cols c) m && Z.eqb k (Z.of_nat N) else true
  | OPs p (PXInit x) => (1 <=? nrUStep (wps w p)) && Nat.eqb (vsize x) n
  | OPs p (PSetModel A B d) => (1 <=? nrUStep (wps w p)) && Nat.eqb (rows A) n && Nat.eqb (cols A) n && Nat.eqb (rows B) n && Nat.eqb (cols B) m && Nat.eqb (vsize d) n
  | OPs p PClearUpdated => true
  | OPs p PUpdate | OPs p PEnsureUpdated => 1 <=? nrUStep (wps w p)
  | OConstruct _ (CLMPCps p) _ | OConstruct _ (CISps p) _ | OInitController _ p => 1 <=? nrUStep (wps w p)
  | OAddCost _ _ | OClearCons => match m_ps (ctl w) with None => false | _ => true end
  | OAddCon _ i =>
      match constraintType (wcon w i), m_ps (ctl w) with
      | _, None => false
      | EqualityConstraint, Some p => fits_int (nrEq (ctl w) + row_count (wps w p) (wcon w i))
      | InequalityConstraint, Some p => fits_int (nrIneq (ctl w) + row_count (wps w p) (wcon w i))
      | BoundConstraint, _ => match spB (ctl w) with [] => true | _ => false end
      end
  | OSpanCon _ i => match ck (wcon w i) with
      | KTraj => negb (Nat.eqb (rows (cE (wcon w i))) 0) && negb (Nat.eqb (vsize (cf (wcon w i))) 0)
      | KCtrl => negb (Nat.eqb (rows (cG (wcon w i))) 0) && negb (Nat.eqb (vsize (cf (wcon w i))) 0)
      | KMixed => negb (Nat.eqb (rows (cE (wcon w i))) 0) && negb (Nat.eqb (rows (cG (wcon w i))) 0) && negb (Nat.eqb (vsize (cf (wcon w i))) 0)
      | KTrajB | KCtrlB => negb (Nat.eqb (vsize (clower (wcon w i))) 0) && negb (Nat.eqb (vsize (cupper (wcon w i))) 0) end
  | OSpanCost _ i => match kk (wcost w i) with TargetCost => true
      | TrajectoryCost => negb (Nat.eqb (rows (kM (wcost w i))) 0) && negb (Nat.eqb (vsize (kp (wcost w i))) 0)
      | MixedCost => negb (Nat.eqb (rows (kM (wcost w i))) 0) && negb (Nat.eqb (rows (kN (wcost w i))) 0) && negb (Nat.eqb (vsize (kp (wcost w i))) 0)
      | ControlCost => negb (Nat.eqb (rows (kN (wcost w i))) 0) && negb (Nat.eqb (vsize (kp (wcost w i))) 0) end
  | OWeights _ v => negb (Nat.eqb (vsize v) 0)
  | OSolve e => match m_ps (ctl w) with None => false | _ => true end &&
      match m_is (ctl w) with None => true | Some s =>
         Nat.eqb (rows (isR s)) n && Nat.eqb (cols (isR s)) n && Nat.eqb (vsize (isr s)) n && Nat.eqb (vsize (isx0lb s)) n && Nat.eqb (vsize (isx0ub s)) n end
  | _ => true
  end.
Fixpoint followsb (n m N : nat) (w : world) (h : list op) : bool :=
  match h with
  | [] => true
  | o :: t => legalb n m N w o && match step w o with Ok w' | Throw _ w' => followsb n m N w' t | UB => true end
  end.
(** an inverse and a solver with answers of the right sizes *)
Definition sane (e : senv) : Prop :=
  (forall M, rows M = cols M -> rows (s_inv e M) = rows M /\ cols (s_inv e M) = cols M) /\
  (forall k a b q r, s_qp e k a b q = (true, r) -> vsize r = k).
Lemma env_with_sane ok f : (forall n, vsize (f n) = n) -> sane (env_with ok f).
Proof. intro H. split; [intros M; cbn; auto|]. cbn. intros k a b q r E. injection E as _ <-. apply H. Qed.
Ltac blast := repeat match goal with
  | H : _ && _ = true |- _ => apply andb_true_iff in H; destruct H
  | H : Nat.eqb _ _ = true |- _ => apply Nat.eqb_eq in H
  | H : (_ <=? _) = true |- _ => apply Nat.leb_le in H
  | H : Z.eqb _ _ = true |- _ => apply Z.eqb_eq in H
  | H : negb (Nat.eqb _ _) = true |- _ => apply negb_true_iff, Nat.eqb_neq in H
  end.
Lemma followsb_ok n m N : forall h w, (forall e, In (OSolve e) h -> sane e) -> followsb n m N w h = true -> follows_protocol n m N w h.
Proof.
  induction h as [|o t IH]; intros w S H; [exact I|]. cbn [followsb] in H. apply andb_true_iff in H as [H1 H2].
  cbn [follows_protocol]. split.
  - destruct o as [p [s c b x k| | | | |]| | | | | | | | | | | | | | | | | | | | | |] eqn:Eo; cbn [legal legalb] in *; unfold is_set, has_system in *; try exact I; try (blast; assumption).
    + intros [W1 [W2 [W3 [W4 W5]]]]. rewrite W3, Nat.eqb_refl, (proj2 (Z.leb_le _ _) W5) in H1. cbn [andb] in H1. blast. auto.
    + blast. repeat split; assumption.
    + blast. repeat split; assumption.
    + unfold con_nonempty. destruct (ck (wcon w i)); try discriminate; blast; left; auto.
    + unfold cost_nonempty. destruct (kk (wcost w i)); try discriminate; blast; left; auto.
    + destruct k; auto; apply Nat.leb_le; exact H1.
    + destruct (m_ps (ctl w)); [discriminate|discriminate].
    + destruct (constraintType (wcon w i)); destruct (m_ps (ctl w)); try discriminate; (split; [discriminate|]); try assumption.
      destruct (spB (ctl w)); [reflexivity|discriminate].
    + destruct (m_ps (ctl w)); [discriminate|discriminate].
    + blast. destruct (S e (or_introl eq_refl)) as [S1 S2]. split; [destruct (m_ps (ctl w)); discriminate|].
      split; [|split; assumption]. intros s Es. rewrite Es in H0. blast. auto.
  - destruct (step w o); auto. all: apply IH; [intros e0 He; apply S; right; exact He|exact H2].
Qed.

(** both controllers, all kinds of calls, an exception on the way *)
Definition ex37 (k : ctor) : list op :=
  [OPs 0 (PSystem exA exB exd exx0 3); OPs 0 (PSystem exA exB exd exx0 0); OPs 0 (PSystem exA exB (vlit [1]%Z) exx0 3);
   ONewCon d_traj; ONewCon d_eq; ONewCon d_bound; ONewCon (DTrajB (elit [fin (-40); NInf]) (elit [fin 40; fin 50]));
   ONewCost d_cost; ONewCost (DTrajC (mlit [[1; 0]]%Z) (vlit [4; 4; 4; 4]%Z)); OSpanCon j0 0;
   OConstruct j0 k qempty; OAddCon j0 0; OAddCon j0 1; OAddCon j0 1; OAddCon j0 2; OAddCon j0 3; OAddCost j0 0; OWeights 0 (vlit [3]%Z);
   OWeights 0 (vlit [1; 2; 3]%Z); OWeight 0 (qz 5); OAddCost j0 1; OResetX0Cost (mlit [[1; 0]; [0; 1]]%Z) (vlit [0; 0]%Z);
   OResetX0Bounds (elit [fin 0; fin 0]) (elit [fin 1; fin 1]);
   OSolve env_ok; OPs 0 (PXInit (vlit [7; -1]%Z)); OPs 0 PClearUpdated; OPs 0 (PSetModel exA exB (vlit [1; 0]%Z)); OSolve env_fail;
   OReleaseCon 3; OSolve env_ok; ORemoveCon 1; OAddCon j0 1; ORemoveCost 0; OSolve env_ok; OInitController j0 0; OClearCons; OAddCon j0 0; OSolve env_ok].
Lemma ex37_sane k e : In (OSolve e) (ex37 k) -> sane e.
Proof.
  intro H. unfold ex37 in H. cbn [In] in H.
  repeat (destruct H as [H|H]; [try discriminate H; injection H as <-; apply env_with_sane; reflexivity|]). contradiction.
Qed.
Example C37_example : sizes_fit 2 1 3 /\ (forall k, k = CLMPCps 0 \/ k = CISps 0 ->
  follows_protocol 2 1 3 world0 (ex37 k) /\
  match run world0 (ex37 k) with Some w => Nat.eqb (length (spC (ctl w))) 1 && negb (Nat.eqb (vsize (m_traj (ctl w))) 0) | None => false end = true).
Proof.
  split; [repeat split; lia|]. intros k [->| ->]; (split; [apply followsb_ok; [apply ex37_sane|]|]); vm_compute; reflexivity.
Qed.

(** ** Rejected registrations *)

(** addConstraint that throws changes nothing at all, in any state *)
Theorem C13_rejected_add : forall j w i e w', addConstraint j w i = Throw e w' ->
  wps w' = wps w /\ (forall k, wcon w' k = wcon w k) /\ wcost w' = wcost w /\ ctl w' = ctl w /\
  hcon w' = hcon w /\ hcost w' = hcost w /\ ncon w' = ncon w /\ ncost w' = ncost w.
Proof.
  intros j w i e w' E. unfold addConstraint in E. destruct (m_ps (ctl w)); [|discriminate].
  destruct (initializeConstraint j (wps w n) (wcon w i)) as [c|x c|] eqn:Ei; [|injection E as <- <-|discriminate].
  - destruct (addConstraintByType _ _); discriminate.
  - apply init_throw in Ei. subst c. cbn. repeat split. intro k. unfold upd. destruct (Nat.eqb_spec k i) as [->|]; reflexivity.
Qed.
(** addCost that throws registers nothing: controller, systems, constraints and the other costs are unchanged, and so are the
    data and weights of the rejected cost *)
Theorem C22_rejected_add : forall j w i e w', addCost j w i = Throw e w' ->
  wps w' = wps w /\ wcon w' = wcon w /\ ctl w' = ctl w /\ hcon w' = hcon w /\ hcost w' = hcost w /\ ncon w' = ncon w /\ ncost w' = ncost w /\
  (forall k, k <> i -> wcost w' k = wcost w k) /\
  kk (wcost w' i) = kk (wcost w i) /\ kM (wcost w' i) = kM (wcost w i) /\ kN (wcost w' i) = kN (wcost w i) /\
  kp (wcost w' i) = kp (wcost w i) /\ kw (wcost w' i) = kw (wcost w i).
Proof.
  intros j w i e w' E. unfold addCost in E. destruct (m_ps (ctl w)); [|discriminate].
  destruct (initializeCost j (wps w n) (wcost w i)) as [c|x c|] eqn:Ei; [discriminate|injection E as <- <-|discriminate].
  assert (K : kk c = kk (wcost w i) /\ kM c = kM (wcost w i) /\ kN c = kN (wcost w i) /\ kp c = kp (wcost w i) /\ kw c = kw (wcost w i)).
  { unfold initializeCost in Ei. destruct (kk (wcost w i)) eqn:K;
      [unfold trajC_init in Ei|unfold targetC_init in Ei|unfold ctrlC_init in Ei|unfold mixedC_init in Ei]; cbv zeta in Ei;
      break_match Ei; injection Ei as _ <-; cbn; rewrite K; repeat split. }
  cbn. do 7 (split; [reflexivity|]). split.
  - intros k Hk. unfold upd. rewrite (proj2 (Nat.eqb_neq _ _)) by exact Hk. reflexivity.
  - replace (upd (wcost w) i c i) with c by (unfold upd; rewrite Nat.eqb_refl; reflexivity). exact K.
Qed.
(** both happen *)
Example C13_C22_rejected_example :
  match run world0 (h_start ++ [ONewCon (DTraj (mlit [[1; 0; 0]]%Z) (elit [fin 25]) true); ONewCost (DTargetC (mlit [[1]]%Z) (vlit [4]%Z))]) with
  | Some w => match addConstraint j0 w 0, addCost j0 w 0 with Throw DomainError _, Throw DomainError _ => true | _, _ => false end
  | None => false end = true.
Proof. vm_compute. reflexivity. Qed.

Print Assumptions C37_protocol_defined.
Print Assumptions C37_next_call_defined.
Print Assumptions C37_solve_defined.
Print Assumptions C37_needs_system.
Print Assumptions C37_two_bounds_undefined.
Print Assumptions C13_rejected_add.
Print Assumptions C22_rejected_add.
(** the registration of two control bound constraints in a controller makes solve undefined *)
Example C37_two_bounds_example :
  match run world0 (h_start ++ [ONewCon d_bound; ONewCon d_bound; OAddCon j0 0; OAddCon j0 1]) with
  | Some w => match step w (OSolve env_ok) with UB => true | _ => false end
  | None => false end = true.
Proof. vm_compute. reflexivity. Qed.
