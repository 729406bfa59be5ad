(** Properties_Sharing.v -- C57: controllers that share preview systems but no constraint and no cost. *)
From Verif Require Import Base Eigen Spec Preview AutoSpan Constraints Costs Controller Registry SpecController SpecProtocol Protocol Properties_Protocol
  SpecApi Properties_Results SpecEndToEnd EndToEndMain ExactSolver Properties_EndToEnd SpecMeaning Meaning Properties_Meaning Checkers Controllers SpecSharing Sharing.

(** [n] controllers; whatever the order of the calls on them and on their objects, controller [c] is in the state it reaches
    when the other controllers are not there *)
Theorem C57_alone : forall n c C K h W,
  c < n -> separated c C K h -> mrun n mworld0 h = Some W ->
  exists w, reached (alone n c C K mworld0 h) w /\
    ctl w = mctl W c /\ wps w = mps W /\
    (forall i, C i = true -> wcon w i = mcon W i /\ hcon w i = mhcon W i) /\
    (forall i, K i = true -> wcost w i = mcost W i /\ hcost w i = mhcost W i).
Proof.
  intros n c C K h W Hc SP R. destruct (sim_run n c C K Hc h _ _ _ (sim0 n c C K) SP R) as [w [Rw [[E1 E2 E3 E4 E5 E6 E7 E8] _ _]]].
  exists w. split; [exact Rw|]. cbn in E1, E4, E5, E6, E7, E8. split; [symmetry; exact E8|]. split; [symmetry; exact E1|].
  split; intros i Hi; split; symmetry; auto.
Qed.
Print Assumptions C57_alone.

(** its next solve: the same outcome, the same problem, the same control *)
Theorem C57_next_solve : forall n c C K h W w e,
  c < n -> separated c C K h -> mrun n mworld0 h = Some W -> reached (alone n c C K mworld0 h) w ->
  match mstep n W (MCtl c (OSolve e)), solve e w with
  | Ok W', Some (b, w') => mctl W' c = ctl w' /\ mps W' = wps w' /\ exists v, solve e (view n c W) = Some (b, v) /\ ctl v = ctl w'
  | UB, None => True
  | _, _ => False
  end.
Proof.
  intros n c C K h W w e Hc SP R Rw. destruct (sim_run n c C K Hc h _ _ _ (sim0 n c C K) SP R) as [w0 [Rw0 S]].
  assert (w0 = w) as -> by (unfold reached in Rw; congruence). pose proof S as [_ SO _].
  pose proof (solve_local C K e (view n c W) w (conj (view_agree n c C K W w S) SO)) as L.
  unfold mstep. rewrite (proj2 (Nat.ltb_lt c n) Hc). cbn [is_shared negb andb can_write step].
  destruct (solve e (view n c W)) as [[b v]|], (solve e w) as [[b' w']|]; cbn in L; try contradiction; cbn [out_map]; [|exact I].
  destruct L as [-> [A _]]. pose proof (ag_ctl _ _ _ _ A) as EC. split.
  - cbn. unfold upd. rewrite Nat.eqb_refl. exact EC.
  - split; [cbn; exact (ag_ps _ _ _ _ A)|]. exists v. split; [reflexivity|exact EC].
Qed.
Print Assumptions C57_next_solve.

(** in particular the control is still the optimal one (C36) for what is registered in [c] *)
Theorem C57_optimal : forall n c C K h W dx du N w p e w',
  c < n -> separated c C K h -> mrun n mworld0 h = Some W ->
  let h1 := alone n c C K mworld0 h in
  posed dx du N h1 w p e true w' -> exact_solver e ->
  exists W', mstep n W (MCtl c (OSolve e)) = Ok W' /\
    let ps := mps W' p in let u := m_ctrl (mctl W' c) in
    is_trajectory ps (x0 ps) u (m_traj (mctl W' c)) /\ admissible h1 w ps (vget u) /\
    (forall V, admissible h1 w ps V -> (full_cost h1 w ps (vget u) <= full_cost h1 w ps V)%Qc) /\
    (nonneg_weights h1 -> forall V, admissible h1 w ps V -> (full_cost h1 w ps V <= full_cost h1 w ps (vget u))%Qc ->
       forall i, i < fullUDim ps -> V i = vget u i).
Proof.
  intros n c C K h W dx du N w p e w' Hc SP R h1 PO EX.
  pose proof (C57_next_solve n c C K h W w e Hc SP R (po_reached _ _ _ _ _ _ _ _ _ PO)) as L. rewrite (po_solve _ _ _ _ _ _ _ _ _ PO) in L.
  destruct (mstep n W (MCtl c (OSolve e))) as [W'|x W'|]; try contradiction. destruct L as [EC [EP _]]. exists W'. split; [reflexivity|]. cbv zeta.
  rewrite EC, EP. exact (po_optimal _ _ _ _ _ _ _ _ PO EX).
Qed.
Print Assumptions C57_optimal.

(** with one controller, a program is the program of the other properties *)
Definition lift (o : op) : mop := if is_shared o then MShared o else MCtl 0 o.
Definition everything : nat -> bool := fun _ => true.
Theorem C57_one_controller : forall h,
  match mrun 1 mworld0 (map lift h), run world0 h with
  | Some W, Some w => alone 1 0 everything everything mworld0 (map lift h) = h /\ mctl W 0 = ctl w /\ mps W = wps w /\
      (forall i, mcon W i = wcon w i /\ mhcon W i = hcon w i) /\ (forall i, mcost W i = wcost w i /\ mhcost W i = hcost w i)
  | None, None => True
  | _, _ => False
  end.
Proof.
  intro h. assert (H01 : 0 < 1) by lia.
  assert (G : forall h W w, sim 1 0 everything everything W w ->
    match mrun 1 W (map lift h), run w h with
    | Some W', Some w' => alone 1 0 everything everything W (map lift h) = h /\ sim 1 0 everything everything W' w'
    | None, None => True | _, _ => False end).
  { clear h. induction h as [|o t IH]; intros W w S; [split; [reflexivity|exact S]|]. cbn [map mrun run alone].
    assert (X : alone1 1 0 everything everything W (lift o) = [o]).
    { unfold lift. destruct (is_shared o) eqn:SH; cbn [alone1]; rewrite SH; [|reflexivity]. destruct o; try discriminate SH; reflexivity. }
    pose proof (sim_step 1 0 everything everything H01 W w (lift o) S) as ST. rewrite X in ST. cbn [run] in ST.
    assert (Y : forall d j i, lift o = MCtl d (OAddCon j i) -> everything i = Nat.eqb d 0).
    { unfold lift. destruct (is_shared o) eqn:SH; intros d j i H; [discriminate H|]. injection H as <- _. reflexivity. }
    assert (Z : forall d j i, lift o = MCtl d (OAddCost j i) -> everything i = Nat.eqb d 0).
    { unfold lift. destruct (is_shared o) eqn:SH; intros d j i H; [discriminate H|]. injection H as <- _. reflexivity. }
    specialize (ST Y Z). rewrite X.
    assert (UBcase : mstep 1 W (lift o) = UB -> step w o = UB).
    { clear ST. pose proof S as [A SO _]. unfold lift. destruct (is_shared o) eqn:SH; cbn [mstep]; rewrite SH; cbn [negb andb Nat.ltb Nat.leb].
      - pose proof (shared_local everything everything _ w o SH (ltac:(destruct o; reflexivity)) A) as SL. rewrite (shared_ctl _ _ o SH) in SL.
        destruct (step (base W) o); cbn in SL |- *; try discriminate. intros _. destruct (step w o); try contradiction. reflexivity.
      - destruct (can_write W o); [|discriminate].
        pose proof (step_local everything everything (view 1 0 W) w o (conj (view_agree 1 0 everything everything W w S) SO) SH (ltac:(destruct o; reflexivity))) as SL.
        destruct (step (view 1 0 W) o); cbn in SL |- *; try discriminate. intros _. destruct (step w o); try contradiction. reflexivity. }
    destruct (mstep 1 W (lift o)) as [W1|x W1|].
    - destruct ST as [w1 [R1 S1]]. specialize (IH W1 w1 S1).
      destruct (step w o) as [w2|y w2|]; [injection R1 as ->|injection R1 as ->|discriminate R1];
        (destruct (mrun 1 W1 (map lift t)) as [W'|], (run w1 t) as [w'|]; try exact IH; destruct IH as [-> S']; split; [reflexivity|exact S']).
    - destruct ST as [w1 [R1 S1]]. specialize (IH W1 w1 S1).
      destruct (step w o) as [w2|y w2|]; [injection R1 as ->|injection R1 as ->|discriminate R1];
        (destruct (mrun 1 W1 (map lift t)) as [W'|], (run w1 t) as [w'|]; try exact IH; destruct IH as [-> S']; split; [reflexivity|exact S']).
    - rewrite (UBcase eq_refl). exact I. }
  specialize (G h mworld0 world0 (sim0 1 0 everything everything)).
  destruct (mrun 1 mworld0 (map lift h)) as [W|], (run world0 h) as [w|]; try exact G. destruct G as [-> [[E1 E2 E3 E4 E5 E6 E7 E8] _ _]]. cbn in *.
  split; [reflexivity|]. split; [exact E8|]. split; [exact E1|]. split; intro i; split; auto.
Qed.
Print Assumptions C57_one_controller.

(** ** An example: controllers 0 and 1 share preview system 0; controller 1 has a per-step mixed cost and is solved twice *)
Definition env57 : senv := env_certs
  [Cert [(qz 4 / (qz 1 + q1em6))%Qc] [] [] [] [((qz 1 + q1em6)%Qc, [qz 1])]; Cert [(qz 12 / (qz 2 + q1em6))%Qc] [] [] [] [((qz 2 + q1em6)%Qc, [qz 1])]].
Definition own57 (i : nat) : bool := Nat.eqb i 0.
Definition ex57 : list mop :=
  [MShared (OPs 0 (PSystem (mlit [[1]]%Z) (mlit [[1]]%Z) (vlit [0]%Z) (vlit [0]%Z) 1));
   MCtl 1 (OConstruct j0 (CLMPCps 0) qempty); MCtl 0 (OConstruct j0 (CLMPCps 0) qempty);
   MShared (ONewCon (DTraj (mlit [[1]]%Z) (elit [fin 1]) true)); MShared (ONewCost (DTargetC (mlit [[1]]%Z) (vlit [2]%Z)));
   MShared (ONewCost (DMixedC (mlit [[1]]%Z) (mlit [[1]]%Z) (vlit [4]%Z)));
   MCtl 1 (OAddCost j0 1); MCtl 0 (OAddCost j0 0); MCtl 1 (OSolve env57); MCtl 0 (OAddCon j0 0); MShared (OReleaseCost 1);
   MCtl 1 (OSolve env57)].
Example C57_example : exists W w w',
  separated 0 own57 own57 ex57 /\ mrun 2 mworld0 ex57 = Some W /\
  posed 1 1 1 (alone 2 0 own57 own57 mworld0 ex57) w 0 (env_certs [cert56 1]) true w' /\ exact_solver (env_certs [cert56 1]) /\
  spCost (mctl W 0) = [0] /\ spC (mctl W 0) = [0] /\ spCost (mctl W 1) = [] /\ vget (m_ctrl (mctl W 1)) 0 = (qz 12 / (qz 2 + q1em6))%Qc /\
  vget (m_ctrl (ctl w')) 0 = qz 1.
Proof.
  assert (SF : sizes_fit 1 1 1) by (repeat split; lia).
  assert (C : match mrun 2 mworld0 ex57 with
    | Some W => match spCost (mctl W 0), spC (mctl W 0), spCost (mctl W 1) with [0], [0], [] => true | _, _, _ => false end &&
        qeqb (vget (m_ctrl (mctl W 1)) 0) (qz 12 / (qz 2 + q1em6))%Qc
    | None => false end = true) by (vm_compute; reflexivity).
  destruct (posedb_ok 1 1 1 (alone 2 0 own57 own57 mworld0 ex57) (env_certs [cert56 1]) true SF ltac:(vm_compute; reflexivity)) as [w [v [R [S P]]]].
  assert (D : match run world0 (alone 2 0 own57 own57 mworld0 ex57) with
    | Some w => match solve (env_certs [cert56 1]) w with Some (_, v) => qeqb (vget (m_ctrl (ctl v)) 0) (qz 1) | None => false end | None => false end = true) by (vm_compute; reflexivity).
  rewrite R, S in D. apply qeqb_ok in D.
  destruct (mrun 2 mworld0 ex57) as [W|]; [|discriminate C]. apply andb_prop in C as [C1 C2]. apply qeqb_ok in C2.
  exists W, w, v. split.
  { split; intros a j i H; cbn in H; repeat (destruct H as [H|H]; [try discriminate H; injection H as <- _ <-; reflexivity|]); contradiction. }
  split; [reflexivity|]. split; [exact P|]. split; [apply env_certs_exact|].
  destruct (spCost (mctl W 0)) as [|[|] []]; try discriminate C1. destruct (spC (mctl W 0)) as [|[|] []]; try discriminate C1. destruct (spCost (mctl W 1)); [|discriminate C1].
  repeat split; assumption.
Qed.

(** ** What a shared cost does (cf. C19): the solve of controller 0 changes the control of controller 1 *)
Definition ex57r : list mop :=
  [MShared (OPs 0 (PSystem (mlit [[1]]%Z) (mlit [[1]]%Z) (vlit [0]%Z) (vlit [0]%Z) 1));
   MCtl 0 (OConstruct j0 (CLMPCps 0) qempty); MCtl 1 (OConstruct j0 (CLMPCps 0) qempty);
   MShared (ONewCost (DMixedC (mlit [[1]]%Z) (mlit [[1]]%Z) (vlit [4]%Z))); MCtl 0 (OAddCost j0 0); MCtl 1 (OAddCost j0 0)].
Theorem C57_shared_cost_refuted : exists h e W W0 W1 W2,
  exact_solver e /\ mrun 2 mworld0 h = Some W /\ (forall a o, In (MCtl a o) h -> forall e', o <> OSolve e') /\
  spCost (mctl W 0) = [0] /\ spCost (mctl W 1) = [0] /\
  (* controller 1 solves *)
  mstep 2 W (MCtl 1 (OSolve e)) = Ok W1 /\
  (* controller 0 solves, then controller 1 *)
  mstep 2 W (MCtl 0 (OSolve e)) = Ok W0 /\ mstep 2 W0 (MCtl 1 (OSolve e)) = Ok W2 /\
  (vget (m_ctrl (mctl W1 1)) 0 + 1 < vget (m_ctrl (mctl W2 1)) 0)%Qc.
Proof.
  assert (C : match mrun 2 mworld0 ex57r with
    | Some W => match spCost (mctl W 0), spCost (mctl W 1) with [0], [0] => true | _, _ => false end &&
        match mstep 2 W (MCtl 1 (OSolve env57)), mstep 2 W (MCtl 0 (OSolve env57)) with
        | Ok W1, Ok W0 => match mstep 2 W0 (MCtl 1 (OSolve env57)) with
            | Ok W2 => negb (qleb (vget (m_ctrl (mctl W2 1)) 0) (vget (m_ctrl (mctl W1 1)) 0 + 1)%Qc) | _ => false end
        | _, _ => false end
    | None => false end = true) by (vm_compute; reflexivity).
  destruct (mrun 2 mworld0 ex57r) as [W|] eqn:R; [|discriminate C]. apply andb_prop in C as [C1 C].
  destruct (mstep 2 W (MCtl 1 (OSolve env57))) as [W1|x W1|] eqn:M1; try discriminate C.
  destruct (mstep 2 W (MCtl 0 (OSolve env57))) as [W0|x W0|] eqn:M0; try discriminate C.
  destruct (mstep 2 W0 (MCtl 1 (OSolve env57))) as [W2|x W2|] eqn:M2; try discriminate C.
  exists ex57r, env57, W, W0, W1, W2. split; [apply env_certs_exact|]. split; [exact R|]. split.
  { intros a o H e'. cbn in H. repeat (destruct H as [H|H]; [try discriminate H; injection H as _ <-; discriminate|]). contradiction. }
  destruct (spCost (mctl W 0)) as [|[|] []]; try discriminate C1. destruct (spCost (mctl W 1)) as [|[|] []]; try discriminate C1.
  split; [reflexivity|]. split; [reflexivity|]. split; [exact M1|]. split; [exact M0|]. split; [exact M2|].
  apply Qcnot_le_lt. intro G. apply qleb_ok in G. rewrite G in C. discriminate C.
Qed.
Print Assumptions C57_shared_cost_refuted.
