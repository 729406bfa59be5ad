(** Properties_Owners.v -- C70: several controllers, and the constraints and costs registered in them. *)
From Verif Require Import Base Eigen Preview SpecApi AutoSpan Constraints Costs Controller Registry SpecController Properties_Registry Checkers
  Controllers SpecSharing Sharing Owners SpecOwners.

(** in every controller the list of each class is the sublist of the list of all constraints *)
Theorem C70_registry : forall K h W, mrun K mworld0 h = Some W -> forall c,
  spEq (mctl W c) = mregistered_of EqualityConstraint W c /\ spIneq (mctl W c) = mregistered_of InequalityConstraint W c /\
  spB (mctl W c) = mregistered_of BoundConstraint W c /\
  (forall i, In i (spC (mctl W c)) -> i < mncon W) /\ (forall i, In i (spCost (mctl W c)) -> i < mncost W).
Proof.
  intros K h W R c. pose proof (minv_run K h _ _ minv0 R) as M. exact (mi_lists W M c).
Qed.
Print Assumptions C70_registry.

(** the solve of [c] leaves the other controllers and the user's pointers as they are, and keeps every registration in [c] of
    what the user or another controller owns *)
Theorem C70_owned_kept : forall K c h e W W', c < K -> mrun K mworld0 h = Some W -> mstep K W (MCtl c (OSolve e)) = Ok W' ->
  (forall a, a <> c -> mctl W' a = mctl W a) /\ mhcon W' = mhcon W /\ mhcost W' = mhcost W /\
  (forall i, user_has_con h i \/ other_has_con K c W i ->
     times (spC (mctl W' c)) i = times (spC (mctl W c)) i /\ times (spEq (mctl W' c)) i = times (spEq (mctl W c)) i /\
     times (spIneq (mctl W' c)) i = times (spIneq (mctl W c)) i /\ times (spB (mctl W' c)) i = times (spB (mctl W c)) i) /\
  (forall i, user_has_cost h i \/ other_has_cost K c W i -> times (spCost (mctl W' c)) i = times (spCost (mctl W c)) i).
Proof.
  intros K c h e W W' Hc R S. pose proof (minv_run K h _ _ minv0 R) as M. destruct (mrun_pointers K h _ _ minv0 R) as [P1 P2].
  destruct (msolve_lists K c e W W' M Hc S) as [A [B [C [H1 [H2 [H3 [H4 H5]]]]]]].
  split; [exact A|]. split; [exact B|]. split; [exact C|]. unfold times. rewrite H1, H2, H3, H4, H5. split; intros i Hi.
  - assert (X : survives (fun i => mhcon W i + others K c (fun a => held_con (mctl W a) i)) (spC (mctl W c)) i = true).
    { apply survives_held. destruct Hi as [Hi|[a [La [Na Ia]]]].
      - rewrite P1. unfold user_has_con in Hi. change (0 < con_pointers i (mncon mworld0) (mhcon mworld0 i) (user_calls h)) in Hi. lia.
      - assert (0 < others K c (fun a => held_con (mctl W a) i)) by (apply (others_pos K c (fun a => held_con (mctl W a) i) a La Na), held_con_pos; exact Ia). lia. }
    repeat split; apply filter_count; exact X.
  - apply filter_count. apply survives_held. destruct Hi as [Hi|[a [La [Na Ia]]]].
    + rewrite P2. unfold user_has_cost in Hi. change (0 < cost_pointers i (mncost mworld0) (mhcost mworld0 i) (user_calls h)) in Hi. lia.
    + assert (0 < others K c (fun a => held_cost (mctl W a) i)) by (apply (others_pos K c (fun a => held_cost (mctl W a) i) a La Na); apply cnt_in; exact Ia). lia.
Qed.
Print Assumptions C70_owned_kept.

(** what [c] alone owns, registered once, is gone from [c] after its solve *)
Theorem C70_lone_dropped : forall K c h e W W', c < K -> mrun K mworld0 h = Some W -> mstep K W (MCtl c (OSolve e)) = Ok W' ->
  (forall i, ~ user_has_con h i -> ~ other_has_con K c W i -> times (spC (mctl W c)) i <= 1 ->
     ~ In i (spC (mctl W' c)) /\ ~ In i (spEq (mctl W' c)) /\ ~ In i (spIneq (mctl W' c)) /\ ~ In i (spB (mctl W' c))) /\
  (forall i, ~ user_has_cost h i -> ~ other_has_cost K c W i -> times (spCost (mctl W c)) i <= 1 -> ~ In i (spCost (mctl W' c))).
Proof.
  intros K c h e W W' Hc R S. pose proof (minv_run K h _ _ minv0 R) as M. destruct (mrun_pointers K h _ _ minv0 R) as [P1 P2].
  destruct (msolve_lists K c e W W' M Hc S) as [_ [_ [_ [H1 [H2 [H3 [H4 H5]]]]]]].
  rewrite H1, H2, H3, H4, H5. split; intros i Hu Ho Ht.
  - assert (X : survives (fun i => mhcon W i + others K c (fun a => held_con (mctl W a) i)) (spC (mctl W c)) i = false).
    { unfold survives. rewrite (others_zero K c).
      - rewrite P1. unfold user_has_con in Hu. change (~ 0 < con_pointers i (mncon mworld0) (mhcon mworld0 i) (user_calls h)) in Hu.
        replace (con_pointers _ _ _ _) with 0 by lia. cbn [Nat.eqb negb orb Nat.add]. apply Nat.ltb_ge. exact Ht.
      - intros a La Na. apply (held_con_zero W); [apply (mi_lists W M)|]. intro Ia. apply Ho. exists a. auto. }
    repeat split; rewrite filter_In, X; intros [_ Y]; discriminate Y.
  - assert (X : survives (fun i => mhcost W i + others K c (fun a => held_cost (mctl W a) i)) (spCost (mctl W c)) i = false).
    { unfold survives. rewrite (others_zero K c).
      - rewrite P2. unfold user_has_cost in Hu. change (~ 0 < cost_pointers i (mncost mworld0) (mhcost mworld0 i) (user_calls h)) in Hu.
        replace (cost_pointers _ _ _ _) with 0 by lia. cbn [Nat.eqb negb orb Nat.add]. apply Nat.ltb_ge. exact Ht.
      - intros a La Na. apply cnt_notin. intro Ia. apply Ho. exists a. auto. }
    rewrite filter_In, X. intros [_ Y]. discriminate Y.
Qed.
Print Assumptions C70_lone_dropped.

(** registered in two controllers: it stays in both through any number of solves of any of them, even if the user has no pointer *)
Lemma solve_keeps_shared K a b i e c W W' : minv W -> a < K -> b < K -> a <> b ->
  mstep K W (MCtl c (OSolve e)) = Ok W' ->
  (In i (spC (mctl W a)) -> In i (spC (mctl W b)) -> times (spC (mctl W' a)) i = times (spC (mctl W a)) i) /\
  (In i (spCost (mctl W a)) -> In i (spCost (mctl W b)) -> times (spCost (mctl W' a)) i = times (spCost (mctl W a)) i).
Proof.
  intros M Ha Hb Hab S. destruct (Nat.lt_ge_cases c K) as [Hc|Hc].
  - destruct (msolve_lists K c e W W' M Hc S) as [A [_ [_ [H1 [_ [_ [_ H5]]]]]]]. destruct (Nat.eq_dec a c) as [->|D].
    + split; intros I1 I2; unfold times; rewrite ?H1, ?H5; apply filter_count, survives_held.
      * pose proof (others_pos K c (fun a => held_con (mctl W a) i) b Hb (fun E => Hab (eq_sym E)) (held_con_pos _ _ I2)). lia.
      * pose proof (others_pos K c (fun a => held_cost (mctl W a) i) b Hb (fun E => Hab (eq_sym E)) (proj2 (cnt_in _ _) I2)). lia.
    + rewrite (A a D). split; reflexivity.
  - cbn [mstep] in S. rewrite (proj2 (Nat.ltb_ge c K) Hc) in S. cbn [andb] in S. injection S as <-. split; reflexivity.
Qed.
Theorem C70_shared_stay : forall K a b h h' W W', a < K -> b < K -> a <> b ->
  mrun K mworld0 h = Some W -> solves_only h' -> mrun K W h' = Some W' ->
  (forall i, In i (spC (mctl W a)) -> In i (spC (mctl W b)) ->
     times (spC (mctl W' a)) i = times (spC (mctl W a)) i /\ times (spC (mctl W' b)) i = times (spC (mctl W b)) i) /\
  (forall i, In i (spCost (mctl W a)) -> In i (spCost (mctl W b)) ->
     times (spCost (mctl W' a)) i = times (spCost (mctl W a)) i /\ times (spCost (mctl W' b)) i = times (spCost (mctl W b)) i).
Proof.
  intros K a b h h' W W' Ha Hb Hab R. pose proof (minv_run K h _ _ minv0 R) as M. clear h R. revert W M.
  induction h' as [|o t IH]; intros W M SO H; cbn in H; [injection H as <-; split; intros; split; reflexivity|].
  destruct (SO o (or_introl eq_refl)) as [c [e ->]]. pose proof (minv_step K W (MCtl c (OSolve e)) M) as X.
  destruct (mstep K W (MCtl c (OSolve e))) as [V|x V|] eqn:E; [| |discriminate H].
  2:{ exfalso. cbn [mstep] in E. destruct (_ && _); [|discriminate E]. cbn [step] in E. destruct (solve e (view K c W)) as [[? ?]|]; discriminate E. }
  destruct (IH V X (fun o Ho => SO o (or_intror Ho)) H) as [I1 I2].
  destruct (solve_keeps_shared K a b) with (i := 0) (e := e) (c := c) (W := W) (W' := V) as [_ _]; auto.
  assert (Q : forall l i, In i l <-> 0 < times l i) by (intros; apply count_occ_In).
  split; intros i Ia Ib.
  - destruct (solve_keeps_shared K a b i e c W V M Ha Hb Hab E) as [G1 _]. destruct (solve_keeps_shared K b a i e c W V M Hb Ha (fun Y => Hab (eq_sym Y)) E) as [G2 _].
    specialize (G1 Ia Ib). specialize (G2 Ib Ia). rewrite <- G1, <- G2. apply I1; apply Q; rewrite ?G1, ?G2; apply Q; assumption.
  - destruct (solve_keeps_shared K a b i e c W V M Ha Hb Hab E) as [_ G1]. destruct (solve_keeps_shared K b a i e c W V M Hb Ha (fun Y => Hab (eq_sym Y)) E) as [_ G2].
    specialize (G1 Ia Ib). specialize (G2 Ib Ia). rewrite <- G1, <- G2. apply I2; apply Q; rewrite ?G1, ?G2; apply Q; assumption.
Qed.
Print Assumptions C70_shared_stay.

(** controllers 0 and 1 share the equality constraint 0, the inequality 1 and the cost 0; the bound 2 is in controller 0 only; the user
    keeps no pointer (a constraint on the control cannot be added to a second controller, C13) *)
Definition ex70 : list mop :=
  [MShared (OPs 0 (PSystem exA exB exd exx0 3)); MCtl 0 (OConstruct j0 (CLMPCps 0) qempty); MCtl 1 (OConstruct j0 (CLMPCps 0) qempty);
   MShared (ONewCon (DTraj (mlit [[1; 0]]%Z) (elit [fin 25]) false)); MShared (ONewCon d_traj); MShared (ONewCon d_bound); MShared (ONewCost d_cost);
   MCtl 0 (OAddCon j0 0); MCtl 0 (OAddCon j0 1); MCtl 0 (OAddCon j0 2); MCtl 0 (OAddCost j0 0);
   MCtl 1 (OAddCon j0 0); MCtl 1 (OAddCon j0 1); MCtl 1 (OAddCost j0 0);
   MShared (OReleaseCon 0); MShared (OReleaseCon 1); MShared (OReleaseCon 2); MShared (OReleaseCost 0)].
Example C70_example : exists W W1 W2,
  mrun 2 mworld0 ex70 = Some W /\
  (forall i, ~ user_has_con ex70 i) /\ (forall i, ~ user_has_cost ex70 i) /\ other_has_con 2 0 W 0 /\ other_has_con 2 0 W 1 /\ ~ other_has_con 2 0 W 2 /\
  spC (mctl W 0) = [0; 1; 2] /\ spC (mctl W 1) = [0; 1] /\
  (* controller 0 solves: only the bound goes *)
  mstep 2 W (MCtl 0 (OSolve env_ok)) = Ok W1 /\ spC (mctl W1 0) = [0; 1] /\ spEq (mctl W1 0) = [0] /\ spIneq (mctl W1 0) = [1] /\ spB (mctl W1 0) = [] /\ spCost (mctl W1 0) = [0] /\
  (* controller 1 drops its constraints and costs, and controller 0 solves again: nothing is left *)
  mrun 2 W1 [MCtl 1 OClearCons; MCtl 1 OClearCosts; MCtl 0 (OSolve env_ok)] = Some W2 /\ spC (mctl W2 0) = [] /\ spCost (mctl W2 0) = [].
Proof.
  set (t2 := [MCtl 1 OClearCons; MCtl 1 OClearCosts; MCtl 0 (OSolve env_ok)]).
  assert (C : match mrun 2 mworld0 ex70 with
    | Some W => match spC (mctl W 0), spC (mctl W 1) with [0; 1; 2], [0; 1] => true | _, _ => false end &&
        match mstep 2 W (MCtl 0 (OSolve env_ok)) with
        | Ok W1 => match spC (mctl W1 0), spEq (mctl W1 0), spIneq (mctl W1 0), spB (mctl W1 0), spCost (mctl W1 0) with
                   | [0; 1], [0], [1], [], [0] => true | _, _, _, _, _ => false end &&
            match mrun 2 W1 t2 with Some W2 => match spC (mctl W2 0), spCost (mctl W2 0) with [], [] => true | _, _ => false end | None => false end
        | _ => false end
    | None => false end = true) by (vm_compute; reflexivity).
  destruct (mrun 2 mworld0 ex70) as [W|] eqn:R; [|discriminate C]. apply andb_prop in C as [C0 C].
  destruct (mstep 2 W (MCtl 0 (OSolve env_ok))) as [W1|x W1|] eqn:M1; try discriminate C. apply andb_prop in C as [C1 C].
  destruct (mrun 2 W1 t2) as [W2|] eqn:M2; [|discriminate C]. exists W, W1, W2. split; [reflexivity|].
  assert (E0 : spC (mctl W 0) = [0; 1; 2] /\ spC (mctl W 1) = [0; 1]).
  { destruct (spC (mctl W 0)) as [|[|] [|[|[|]] [|[|[|[|]]] []]]]; try discriminate C0. destruct (spC (mctl W 1)) as [|[|] [|[|[|]] []]]; try discriminate C0. split; reflexivity. }
  destruct E0 as [E0 E1].
  split; [intros [|[|[|i]]] H; unfold user_has_con in H; vm_compute in H; lia|]. split; [intros [|i] H; unfold user_has_cost in H; vm_compute in H; lia|].
  split; [exists 1; rewrite E1; cbn; repeat split; auto|]. split; [exists 1; rewrite E1; cbn; repeat split; auto|].
  split; [intros [a [La [Na Ia]]]; assert (a = 1) as -> by lia; rewrite E1 in Ia; cbn in Ia; lia|].
  split; [exact E0|]. split; [exact E1|]. split; [exact M1|].
  destruct (spC (mctl W1 0)) as [|[|] [|[|[|]] []]]; try discriminate C1. destruct (spEq (mctl W1 0)) as [|[|] []]; try discriminate C1.
  destruct (spIneq (mctl W1 0)) as [|[|[|]] []]; try discriminate C1. destruct (spB (mctl W1 0)); try discriminate C1. destruct (spCost (mctl W1 0)) as [|[|] []]; try discriminate C1.
  do 5 (split; [reflexivity|]). split; [exact M2|]. destruct (spC (mctl W2 0)); try discriminate C. destruct (spCost (mctl W2 0)); try discriminate C. split; reflexivity.
Qed.
