(** Properties_Costs.v -- C15-C22, C24, C26 (costs): the cost functions.
    [kQ], [kc], [kE], [kf] are what the getters Q(), c(), E(), f() return. *)
From Verif Require Import Base Eigen Spec Preview SpecApi AutoSpan Constraints SpecConstraints Costs SpecCosts
  PreviewProofs AutoSpanProofs SpanMeaning ConstraintProofs ConstraintMeaning CostProofs CostMeaning Checkers.

Lemma fresh_cost_ok c : fresh_cost c -> fresh_ok c.
Proof. intros []; split; reflexivity. Qed.

Lemma acc_step ps c1 : k_entry ps c1 -> (k_acc c1 = true <-> step_entry ps c1).
Proof.
  unfold k_entry, k_acc, step_entry. destruct (kk c1).
  - intros ->. rewrite negb_involutive, Nat.eqb_eq. tauto.
  - split; [discriminate|tauto].
  - split; [discriminate|tauto].
  - intros ->. rewrite negb_involutive, andb_true_iff, !Nat.eqb_eq. tauto.
Qed.

Lemma step_entry_dims p q c : same_dims p q -> step_entry p c -> step_entry q c.
Proof. intros [H1 [H2 _]]. unfold step_entry. rewrite H1, H2. auto. Qed.

(** all classes at once *)
Lemma cost_value_gen j c0 ps0 h w ps c1 : fresh_ok c0 -> initializeCost j ps0 c0 = Ok c1 ->
  cost_history ps0 (vsize (kp c0)) (h ++ [(w, ps)]) -> h = [] \/ ~ step_entry ps c0 ->
  exists c2, k_updates (h ++ [(w, ps)]) c1 = Some c2 /\
    kk c2 = kk c0 /\ kM c2 = kM c0 /\ kN c2 = kN c0 /\ kp c2 = kp c0 /\ kw c2 = w /\
    k_shape ps c2 /\ k_entry ps c2 /\ k_exact ps c2 /\
    forall U, objective (fullUDim ps) (at_ (kQ c2)) (vget (kc c2)) U
      = (doc_cost ps (set_w c0 w) (vget (x0 ps)) U - doc_cost ps (set_w c0 w) (vget (x0 ps)) (fun _ => 0))%Qc.
Proof.
  intros F I H A. destruct (k_init_ok j ps0 c0 c1 F I) as [I1 [I2 [I3 [I4 [I5 [S [En Z]]]]]]].
  assert (HH := H). apply Forall_app in HH. destruct HH as [_ HH]. inversion HH as [|? ? [Hw [R D]] _]; subst. cbn in Hw, R, D.
  assert (A' : k_acc c1 = false \/ h = []).
  { destruct A as [A|A]; [right; exact A|]. left. destruct (k_acc c1) eqn:K; [|reflexivity]. exfalso. apply A.
    eapply step_entry_dims; [apply same_dims_sym; exact D|]. apply (acc_step ps0 c1 En) in K.
    unfold step_entry in *. rewrite I1, I2, I3 in K. exact K. }
  destruct (k_updates_exact ps0 h w ps c1 S En Z A') as [c2 [E [[M1 [M2 [M3 [M4 M5]]]] [M6 [S2 [E2 X2]]]]]].
  { rewrite I4. exact H. }
  exists c2. split; [exact E|]. split; [congruence|]. split; [congruence|]. split; [congruence|]. split; [congruence|].
  split; [exact M6|]. split; [exact S2|]. split; [exact E2|]. split; [exact X2|]. intro U.
  rewrite (k_value ps R c2 U) by (apply S2 || assumption).
  unfold doc_cost. cbn. rewrite M1, M3, M4, M5, M6, I1, I2, I3, I4. reflexivity.
Qed.

Lemma cost_value j c0 ps0 h w ps c1 : fresh_cost c0 -> initializeCost j ps0 c0 = Ok c1 ->
  cost_history ps0 (vsize (kp c0)) (h ++ [(w, ps)]) -> h = [] \/ ~ step_entry ps c0 ->
  exists c2, k_updates (h ++ [(w, ps)]) c1 = Some c2 /\
    kk c2 = kk c0 /\ kM c2 = kM c0 /\ kN c2 = kN c0 /\ kp c2 = kp c0 /\ kw c2 = w /\
    k_shape ps c2 /\ k_entry ps c2 /\ k_exact ps c2 /\
    forall U, objective (fullUDim ps) (at_ (kQ c2)) (vget (kc c2)) U
      = (doc_cost ps (set_w c0 w) (vget (x0 ps)) U - doc_cost ps (set_w c0 w) (vget (x0 ps)) (fun _ => 0))%Qc.
Proof. intro F. apply cost_value_gen. apply fresh_cost_ok. exact F. Qed.

(** ** C15.  Full-size entries: after any history of solves.  Per-step entries: after the first solve
    (the later ones are the subject of C19). *)
Theorem C15_trajectory_cost : forall j M p ps0 h w ps c1,
  initializeCost j ps0 (mkTrajC M p) = Ok c1 -> cost_history ps0 (vsize p) (h ++ [(w, ps)]) ->
  h = [] \/ cols M <> xDim ps ->
  exists c2, k_updates (h ++ [(w, ps)]) c1 = Some c2 /\
    forall U, objective (fullUDim ps) (at_ (kQ c2)) (vget (kc c2)) U
      = (traj_cost ps M p w (vget (x0 ps)) U - traj_cost ps M p w (vget (x0 ps)) (fun _ => 0))%Qc.
Proof.
  intros j M p ps0 h w ps c1 I H A.
  destruct (cost_value j (mkTrajC M p) ps0 h w ps c1 (fresh_trajC M p) I H A) as [c2 [E [_ [_ [_ [_ [_ [_ [_ [_ V]]]]]]]]]].
  exists c2. split; [exact E|exact V].
Qed.
Print Assumptions C15_trajectory_cost.

Definition cost_check (c0 : cost) (w : vec Qc) (doc : (nat -> Qc) -> Qc) (U : vec Qc) : bool :=
  match initializeCost j0 exps c0 with
  | Ok c1 => match k_updates [(w, exps)] c1 with
    | Some c2 => qeqb (objective (fullUDim exps) (at_ (kQ c2)) (vget (kc c2)) (vget U)) (doc (vget U) - doc (fun _ => 0))%Qc
                 && negb (qeqb (doc (vget U)) (doc (fun _ => 0%Qc)))
    | None => false end
  | _ => false end.

(** per-step entry with weights (2,3), and a full-size one, on the 2-state example over 3 steps *)
Example C15_example :
  (let M := mlit [[1; 2]; [0; 1]]%Z in let p := vlit [1; -1]%Z in let w := vlit [2; 3]%Z in
   cost_check (mkTrajC M p) w (traj_cost exps M p w (vget (x0 exps))) exU) = true /\
  (let M := mlit [[1; 2; 0; 1; 0; 0; 1; 1]]%Z in let p := vlit [4]%Z in let w := vlit [5]%Z in
   cost_check (mkTrajC M p) w (traj_cost exps M p w (vget (x0 exps))) exU) = true.
Proof. split; vm_compute; reflexivity. Qed.

(** ** C16 *)
Theorem C16_target_cost : forall j M p ps0 h w ps c1,
  initializeCost j ps0 (mkTargetC M p) = Ok c1 -> cost_history ps0 (vsize p) (h ++ [(w, ps)]) ->
  exists c2, k_updates (h ++ [(w, ps)]) c1 = Some c2 /\
    forall U, objective (fullUDim ps) (at_ (kQ c2)) (vget (kc c2)) U
      = (target_cost ps M p w (vget (x0 ps)) U - target_cost ps M p w (vget (x0 ps)) (fun _ => 0))%Qc.
Proof.
  intros j M p ps0 h w ps c1 I H.
  destruct (cost_value j (mkTargetC M p) ps0 h w ps c1 (fresh_targetC M p) I H) as [c2 [E [_ [_ [_ [_ [_ [_ [_ [_ V]]]]]]]]]].
  { right. unfold step_entry. cbn. tauto. }
  exists c2. split; [exact E|exact V].
Qed.
Print Assumptions C16_target_cost.
Example C16_example :
  (let M := mlit [[1; 2]; [0; 1]]%Z in let p := vlit [1; -1]%Z in let w := vlit [2; 3]%Z in
   cost_check (mkTargetC M p) w (target_cost exps M p w (vget (x0 exps))) exU) = true.
Proof. vm_compute; reflexivity. Qed.

(** ** C17 *)
Theorem C17_control_cost : forall j N p ps0 h w ps c1,
  initializeCost j ps0 (mkCtrlC N p) = Ok c1 -> cost_history ps0 (vsize p) (h ++ [(w, ps)]) ->
  exists c2, k_updates (h ++ [(w, ps)]) c1 = Some c2 /\
    forall U, objective (fullUDim ps) (at_ (kQ c2)) (vget (kc c2)) U
      = (ctrl_cost ps N p w U - ctrl_cost ps N p w (fun _ => 0))%Qc.
Proof.
  intros j N p ps0 h w ps c1 I H.
  destruct (cost_value j (mkCtrlC N p) ps0 h w ps c1 (fresh_ctrlC N p) I H) as [c2 [E [_ [_ [_ [_ [_ [_ [_ [_ V]]]]]]]]]].
  { right. unfold step_entry. cbn. tauto. }
  exists c2. split; [exact E|exact V].
Qed.
Print Assumptions C17_control_cost.
Example C17_example :
  (let N := mlit [[1]; [2]]%Z in let p := vlit [1; -1]%Z in let w := vlit [2; 3]%Z in
   cost_check (mkCtrlC N p) w (ctrl_cost exps N p w) exU) = true /\
  (let N := mlit [[1; 2; 3]]%Z in let p := vlit [4]%Z in let w := vlit [5]%Z in
   cost_check (mkCtrlC N p) w (ctrl_cost exps N p w) exU) = true.
Proof. split; vm_compute; reflexivity. Qed.

(** ** C18 *)
Theorem C18_mixed_cost : forall j M N p ps0 h w ps c1,
  initializeCost j ps0 (mkMixedC M N p) = Ok c1 -> cost_history ps0 (vsize p) (h ++ [(w, ps)]) ->
  h = [] \/ ~ (cols M = xDim ps /\ cols N = uDim ps) ->
  exists c2, k_updates (h ++ [(w, ps)]) c1 = Some c2 /\
    forall U, objective (fullUDim ps) (at_ (kQ c2)) (vget (kc c2)) U
      = (mixed_cost ps M N p w (vget (x0 ps)) U - mixed_cost ps M N p w (vget (x0 ps)) (fun _ => 0))%Qc.
Proof.
  intros j M N p ps0 h w ps c1 I H A.
  destruct (cost_value j (mkMixedC M N p) ps0 h w ps c1 (fresh_mixedC M N p) I H A) as [c2 [E [_ [_ [_ [_ [_ [_ [_ [_ V]]]]]]]]]].
  exists c2. split; [exact E|exact V].
Qed.
Print Assumptions C18_mixed_cost.
Example C18_example :
  (let M := mlit [[1; 2]; [0; 1]]%Z in let N := mlit [[1]; [2]]%Z in let p := vlit [1; -1]%Z in let w := vlit [2; 3]%Z in
   cost_check (mkMixedC M N p) w (mixed_cost exps M N p w (vget (x0 exps))) exU) = true /\
  (let M := mlit [[1; 2; 0; 1; 0; 0; 1; 1]]%Z in let N := mlit [[1; 2; 3]]%Z in let p := vlit [4]%Z in let w := vlit [5]%Z in
   cost_check (mkMixedC M N p) w (mixed_cost exps M N p w (vget (x0 exps))) exU) = true.
Proof. split; vm_compute; reflexivity. Qed.

(** ** C19 (object level): what repeated solves do to per-step trajectory and mixed costs *)

Definition qn (n : nat) : Qc := qz (Z.of_nat n).
Lemma qn_S n : qn (S n) = (qn n + 1)%Qc.
Proof.
  unfold qn, qz. apply Qc_is_canon. cbn [this Q2Qc Qcplus]. rewrite !Qred_correct.
  rewrite Nat2Z.inj_succ. unfold Z.succ. rewrite inject_Z_plus. reflexivity.
Qed.
Lemma qn_0 : qn 0 = 0%Qc.
Proof. apply Qc_is_canon. reflexivity. Qed.

Lemma k_set_w_id c : set_w c (kw c) = c.
Proof. destruct c; reflexivity. Qed.

(** the state of a per-step object after [a] updates with the same data *)
Definition acc_state (ps : psys) (a : nat) (c : cost) : Prop :=
  (forall i j, i < fullUDim ps -> j < fullUDim ps -> at_ (kQ c) i j = (qn a * kQf ps c i j)%Qc) /\
  (forall i j, i < xDim ps -> j < fullUDim ps -> at_ (kE c) i j = (qn a * kEf ps c i j)%Qc) /\
  (forall j, j < fullUDim ps -> vget (kf c) j = (qn a * kff ps c j)%Qc) /\
  (forall j, j < fullUDim ps -> vget (kc c) j =
     (qn (if k_acc_c c then a * (a + 1) / 2 else a)
      * (sum (xDim ps) (fun i => kEf ps c i j * vget (x0 ps) i) + kff ps c j))%Qc).

Lemma tri_S a : S a * (S a + 1) / 2 = a * (a + 1) / 2 + S a.
Proof. replace (S a * (S a + 1)) with (a * (a + 1) + S a * 2) by lia. apply Nat.div_add. lia. Qed.
Lemma qn_add a b : qn (a + b) = (qn a + qn b)%Qc.
Proof.
  induction b as [|b IH]; [rewrite Nat.add_0_r, qn_0; ring|]. rewrite Nat.add_succ_r, !qn_S, IH. ring.
Qed.

Lemma accumulate ps (R : ready ps) w n : forall a c, k_shape ps c -> k_acc c = true -> kw c = w -> acc_state ps a c ->
  exists c', k_updates (repeat (w, ps) n) c = Some c' /\ k_same c c' /\ k_shape ps c' /\ acc_state ps (a + n) c'.
Proof.
  induction n as [|n IH]; intros a c S A Ew AS.
  - exists c. split; [reflexivity|]. split; [repeat split|]. split; [exact S|]. rewrite Nat.add_0_r. exact AS.
  - cbn [repeat k_updates]. assert (Iw : set_w c w = c) by (rewrite <- Ew; apply k_set_w_id). rewrite Iw. clear Iw.
    destruct (k_update_ok ps R c S) as [c1 [E1 [Sm [S1 [RQ [RE [RF RC]]]]]]]. rewrite A in *.
    rewrite E1. cbn [obind]. destruct Sm as [M1 [M2 [M3 [M4 [M5 M6]]]]].
    assert (EQ : kQf ps c1 = kQf ps c /\ kEf ps c1 = kEf ps c /\ kff ps c1 = kff ps c).
    { unfold kQf, kEf, kff, kK, kR, kT, kH, kG. rewrite M1, M2, M3, M4, M5, M6. auto. }
    destruct EQ as [EQ [EE EF]].
    assert (Ac : k_acc_c c1 = k_acc_c c) by (unfold k_acc_c; rewrite M1, M2; reflexivity).
    destruct AS as [AQ [AE [AF AC]]].
    assert (AS1 : acc_state ps (1 + a) c1).
    { unfold acc_state. rewrite EQ, EE, EF, Ac.
      assert (HE : forall i j, i < xDim ps -> j < fullUDim ps -> at_ (kE c1) i j = (qn (1 + a) * kEf ps c i j)%Qc).
      { intros. cbn [Nat.add]. rewrite qn_S, RE, AE by assumption. ring. }
      assert (HF : forall j, j < fullUDim ps -> vget (kf c1) j = (qn (1 + a) * kff ps c j)%Qc).
      { intros. cbn [Nat.add]. rewrite qn_S, RF, AF by assumption. ring. }
      split; [|split; [exact HE|split; [exact HF|]]].
      - intros. cbn [Nat.add]. rewrite qn_S, RQ, AQ by assumption. ring.
      - intros j Hj. rewrite RC by exact Hj. rewrite HF by exact Hj.
        rewrite (sum_ext (xDim ps) _ (fun i => qn (1 + a) * (kEf ps c i j * vget (x0 ps) i))%Qc).
        2:{ intros i Hi. rewrite HE by assumption. ring. }
        rewrite sum_scal_l. destruct (k_acc_c c).
        + rewrite AC by exact Hj. cbn [Nat.add]. rewrite tri_S, qn_add. ring.
        + ring. }
    destruct (IH (1 + a) c1) as [c2 [E2 [Sm2 [S2 AS2]]]]; [exact S1|unfold k_acc in *; rewrite M1, M2; exact A|congruence|exact AS1|].
    exists c2. split; [exact E2|]. destruct Sm2 as [N1 [N2 [N3 [N4 [N5 N6]]]]]. split; [repeat split; congruence|]. split; [exact S2|].
    replace (a + Datatypes.S n) with (1 + a + n) by lia. exact AS2.
Qed.

Lemma accumulate_from_init j c0 ps0 w ps n c1 : fresh_cost c0 -> initializeCost j ps0 c0 = Ok c1 -> step_entry ps c0 ->
  vsize w = vsize (kp c0) -> ready ps -> same_dims ps ps0 ->
  exists c2, k_updates (repeat (w, ps) (S n)) c1 = Some c2 /\
    kk c2 = kk c0 /\ kM c2 = kM c0 /\ kN c2 = kN c0 /\ kp c2 = kp c0 /\ kw c2 = w /\ k_acc_c c2 = k_acc_c (set_w c1 w) /\
    k_shape ps c2 /\ k_entry ps c2 /\ acc_state ps (S n) c2.
Proof.
  intros F I St Hw R D. destruct (k_init_ok j ps0 c0 c1 (fresh_cost_ok c0 F) I) as [I1 [I2 [I3 [I4 [I5 [S [En Z]]]]]]].
  assert (D' := same_dims_sym _ _ D).
  assert (A : k_acc c1 = true).
  { apply (acc_step ps0 c1 En). eapply step_entry_dims; [exact D|]. unfold step_entry in *. rewrite I1, I2, I3. exact St. }
  assert (E0 : k_updates (repeat (w, ps) (Datatypes.S n)) c1 = k_updates (repeat (w, ps) (Datatypes.S n)) (set_w c1 w)) by reflexivity.
  destruct (accumulate ps R w (Datatypes.S n) 0 (set_w c1 w)) as [c2 [E [[M1 [M2 [M3 [M4 [M5 M6]]]]] [S2 A2]]]].
  - apply k_shape_w; [congruence|]. eapply k_shape_dims; eassumption.
  - exact A.
  - reflexivity.
  - destruct (k_zero_dims _ _ _ D' Z A) as [Z1 [Z2 [Z3 Z4]]].
    assert (Zn : forall q : Qc, (0 = qn 0 * q)%Qc) by (intro q; rewrite qn_0; ring).
    split; [|split; [|split]].
    + intros i1 j1 Hi Hj. etransitivity; [apply Z1; assumption|apply Zn].
    + intros i1 j1 Hi Hj. etransitivity; [apply Z2; assumption|apply Zn].
    + intros j1 Hj. etransitivity; [apply Z3; assumption|apply Zn].
    + intros j1 Hj. replace (if k_acc_c (set_w c1 w) then 0 * (0 + 1) / 2 else 0) with 0 by (destruct (k_acc_c (set_w c1 w)); reflexivity).
      etransitivity; [apply Z4; assumption|apply Zn].
  - exists c2. rewrite E0. cbn in M1, M2, M3, M4, M5, M6.
    split; [exact E|]. repeat (split; [congruence|]). split; [unfold k_acc_c; cbn; rewrite M1, M2; reflexivity|]. split; [exact S2|].
    split; [|exact A2]. eapply k_entry_dims; [exact D'|]. unfold k_entry in *. rewrite M1, M2, M3, M4. exact En.
Qed.

(** After n+1 solves the documented cost of a per-step trajectory cost is counted n+1 times. *)
Theorem C19_trajectory_cost_after_n_solves_partial : forall j M p ps0 w ps n c1,
  initializeCost j ps0 (mkTrajC M p) = Ok c1 -> cols M = xDim ps -> vsize w = vsize p -> ready ps -> same_dims ps ps0 ->
  exists c2, k_updates (repeat (w, ps) (S n)) c1 = Some c2 /\
    forall U, objective (fullUDim ps) (at_ (kQ c2)) (vget (kc c2)) U
      = (qn (S n) * (traj_cost ps M p w (vget (x0 ps)) U - traj_cost ps M p w (vget (x0 ps)) (fun _ => 0)))%Qc.
Proof.
  intros j M p ps0 w ps n c1 I Hc Hw R D.
  destruct (accumulate_from_init j (mkTrajC M p) ps0 w ps n c1 (fresh_trajC M p) I Hc Hw R D)
    as [c2 [E [K1 [K2 [K3 [K4 [K5 [K6 [S2 [En2 [AQ [AE [AF AC]]]]]]]]]]]]].
  exists c2. split; [exact E|]. intro U.
  assert (Kc : k_acc_c c2 = false) by (unfold k_acc_c; rewrite K1; reflexivity). rewrite Kc in AC.
  assert (Dm : k_dims ps c2) by apply S2.
  assert (V : (sum (kK ps c2) (fun k => wsq (kR c2) (vget (kw c2)) (k_res ps c2 (vget (x0 ps)) U k))
     - sum (kK ps c2) (fun k => wsq (kR c2) (vget (kw c2)) (k_res ps c2 (vget (x0 ps)) (fun _ => 0%Qc) k)))%Qc
     = objective (fullUDim ps) (kQf ps c2) (fun j => sum (xDim ps) (fun i => kEf ps c2 i j * vget (x0 ps) i) + kff ps c2 j)%Qc U).
  { unfold k_res. rewrite <- !form_value. rewrite objective_0. unfold formc, kQf, kEf, kff. ring. }
  rewrite <- !(doc_cost_form ps R) in V by assumption.
  unfold doc_cost in V. rewrite K1, K2, K4, K5 in V. cbn in V. rewrite V. clear V.
  unfold objective. rewrite Qcmult_plus_distr_r. f_equal.
  - rewrite (sum_ext (fullUDim ps) _ (fun i => qn (S n) * (U i * apply (fullUDim ps) (kQf ps c2) U i))%Qc).
    + rewrite sum_scal_l. ring.
    + intros i Hi. unfold apply.
      rewrite (sum_ext (fullUDim ps) _ (fun j0 => qn (S n) * (kQf ps c2 i j0 * U j0))%Qc).
      * rewrite sum_scal_l. ring.
      * intros a Ha. rewrite AQ by assumption. ring.
  - rewrite <- sum_scal_l. apply sum_ext; intros i Hi. rewrite AC by exact Hi. ring.
Qed.
Print Assumptions C19_trajectory_cost_after_n_solves_partial.

(** After n+1 solves Q of a per-step mixed cost is n+1 times, and c is (n+1)(n+2)/2 times, that of the first solve. *)
Theorem C19_mixed_cost_after_n_solves_partial : forall j M N p ps0 w ps n c1,
  initializeCost j ps0 (mkMixedC M N p) = Ok c1 -> cols M = xDim ps -> cols N = uDim ps ->
  vsize w = vsize p -> ready ps -> same_dims ps ps0 ->
  exists first last, k_updates [(w, ps)] c1 = Some first /\ k_updates (repeat (w, ps) (S n)) c1 = Some last /\
    (forall i j, i < fullUDim ps -> j < fullUDim ps -> at_ (kQ last) i j = (qn (S n) * at_ (kQ first) i j)%Qc) /\
    (forall j, j < fullUDim ps -> vget (kc last) j = (qn ((n + 1) * (n + 2) / 2) * vget (kc first) j)%Qc).
Proof.
  intros j M N p ps0 w ps n c1 I HM HN Hw R D.
  destruct (accumulate_from_init j (mkMixedC M N p) ps0 w ps 0 c1 (fresh_mixedC M N p) I (conj HM HN) Hw R D)
    as [cf [E [K1 [K2 [K3 [K4 [K5 [K6 [S2 [En2 [AQ [AE [AF AC]]]]]]]]]]]]].
  destruct (accumulate_from_init j (mkMixedC M N p) ps0 w ps n c1 (fresh_mixedC M N p) I (conj HM HN) Hw R D)
    as [cl [El [L1 [L2 [L3 [L4 [L5 [L6 [S2l [En2l [BQ [BE [BF BC]]]]]]]]]]]]].
  exists cf, cl. split; [exact E|]. split; [exact El|].
  assert (Ff : kfull cl = kfull cf).
  { unfold k_entry in En2, En2l. rewrite K1 in En2. rewrite L1 in En2l. cbn in En2, En2l. rewrite En2, En2l. congruence. }
  assert (Kf : kfull cf = false).
  { unfold k_entry in En2. rewrite K1, K2, K3 in En2. cbn in En2. rewrite En2, HM, HN, !Nat.eqb_refl. reflexivity. }
  assert (Kc : k_acc_c cf = true) by (unfold k_acc_c; rewrite K1, Kf; reflexivity).
  assert (Lc : k_acc_c cl = true) by (unfold k_acc_c; rewrite L1, Ff, Kf; reflexivity).
  rewrite Kc in AC. rewrite Lc in BC.
  assert (EQ : kQf ps cl = kQf ps cf /\ kEf ps cl = kEf ps cf /\ kff ps cl = kff ps cf).
  { unfold kQf, kEf, kff, kK, kR, kT, kH, kG. rewrite K1, K2, K3, K4, K5, L1, L2, L3, L4, L5, Ff. auto. }
  destruct EQ as [EQ [EE EF]]. assert (Q1 : qn 1 = 1%Qc) by (apply Qc_is_canon; reflexivity).
  split.
  - intros a b Ha Hb. rewrite BQ, AQ by assumption. rewrite EQ, Q1. ring.
  - intros b Hb. rewrite BC, AC by assumption. rewrite EE, EF.
    change (1 * (1 + 1) / 2) with 1. rewrite Q1. replace (S n * (S n + 1)) with ((n + 1) * (n + 2)) by lia. ring.
Qed.
Print Assumptions C19_mixed_cost_after_n_solves_partial.

(** the object law, on the 2-state example: after 3 solves Q of the per-step trajectory cost is 3 times that of
    the first one; Q of the mixed cost is 3 times and c 6 times that of the first one *)
Definition law_check (c0 : cost) (w : vec Qc) (fq fc : Z) : bool :=
  match initializeCost j0 exps c0 with
  | Ok c1 => match k_updates [(w, exps)] c1, k_updates (repeat (w, exps) 3) c1 with
    | Some a, Some b => qeqb (at_ (kQ b) 0 1) (qz fq * at_ (kQ a) 0 1)%Qc && qeqb (vget (kc b) 0) (qz fc * vget (kc a) 0)%Qc
                        && negb (qeqb (at_ (kQ a) 0 1) 0%Qc) && negb (qeqb (vget (kc a) 0) 0%Qc)
    | _, _ => false end
  | _ => false end.
Example C19_law_example :
  law_check (mkTrajC (mlit [[1; 2]; [0; 1]]%Z) (vlit [1; -1]%Z)) (vlit [2; 3]%Z) 3 3 = true /\
  law_check (mkMixedC (mlit [[1; 2]; [0; 1]]%Z) (mlit [[1]; [2]]%Z) (vlit [1; -1]%Z)) (vlit [2; 3]%Z) 3 6 = true.
Proof. split; vm_compute; reflexivity. Qed.

(** ** C20.  Q, E, f do not depend on x0, and c = E' x0 + f. *)
Theorem C20_x0_explicit_form : forall j c0 ps0 h w ps x c1,
  fresh_cost c0 -> initializeCost j ps0 c0 = Ok c1 -> cost_history ps0 (vsize (kp c0)) (h ++ [(w, ps)]) ->
  h = [] \/ ~ step_entry ps c0 -> vsize x = xDim ps ->
  exists c2 c3, k_updates (h ++ [(w, ps)]) c1 = Some c2 /\ k_updates (h ++ [(w, ps_xInit ps x)]) c1 = Some c3 /\
    (forall i k, i < fullUDim ps -> k < fullUDim ps -> at_ (kQ c3) i k = at_ (kQ c2) i k) /\
    (forall i k, i < xDim ps -> k < fullUDim ps -> at_ (kE c3) i k = at_ (kE c2) i k) /\
    (forall k, k < fullUDim ps -> vget (kf c3) k = vget (kf c2) k) /\
    (forall k, k < fullUDim ps ->
       vget (kc c2) k = (sum (xDim ps) (fun i => at_ (kE c2) i k * vget (x0 ps) i) + vget (kf c2) k)%Qc) /\
    (forall k, k < fullUDim ps ->
       vget (kc c3) k = (sum (xDim ps) (fun i => at_ (kE c2) i k * vget x i) + vget (kf c2) k)%Qc) /\
    (forall U, objective (fullUDim ps) (at_ (kQ c2))
                 (fun k => sum (xDim ps) (fun i => at_ (kE c2) i k * vget x i) + vget (kf c2) k)%Qc U
       = (doc_cost ps (set_w c0 w) (vget x) U - doc_cost ps (set_w c0 w) (vget x) (fun _ => 0))%Qc).
Proof.
  intros j c0 ps0 h w ps x c1 F I H A Hx.
  destruct (cost_value j c0 ps0 h w ps c1 F I H A) as [c2 [E2 [K1 [K2 [K3 [K4 [K5 [S2 [En2 [X2 _]]]]]]]]]].
  assert (HH := H). apply Forall_app in HH. destruct HH as [Hh HH].
  inversion HH as [|? ? [Hw [R D]] _]; subst. cbn in Hw, R, D.
  assert (R' : ready (ps_xInit ps x)) by (destruct R; constructor; assumption).
  destruct (cost_value j c0 ps0 h (kw c2) (ps_xInit ps x) c1 F I) as [c3 [E3 [L1 [L2 [L3 [L4 [L5 [S3 [En3 [X3 _]]]]]]]]]].
  { apply Forall_app. split; [exact Hh|]. constructor; [|constructor]. cbn. auto. }
  { destruct A as [A|A]; [left; exact A|right; exact A]. }
  assert (Ff : kfull c3 = kfull c2 \/ kk c3 = TargetCost).
  { unfold k_entry in En2, En3. rewrite L1, L2, L3 in En3. rewrite K1, K2, K3 in En2. rewrite L1.
    cbn [xDim uDim ps_xInit] in En3.
    destruct (kk c0); [left|right|left|left]; [congruence|reflexivity|congruence|congruence]. }
  assert (EQ : kQf (ps_xInit ps x) c3 = kQf ps c2 /\ kEf (ps_xInit ps x) c3 = kEf ps c2 /\ kff (ps_xInit ps x) c3 = kff ps c2).
  { unfold kQf, kEf, kff, kK, kR, kT, kH, kG. rewrite L2, L3, L4, L5, L1, K1, K2, K3, K4.
    cbn [xDim uDim nrUStep nrXStep fullUDim fullXDim psPhi psPsi psxi ps_xInit].
    destruct Ff as [Ff|Ff]; [rewrite Ff; auto|]. rewrite L1 in Ff. rewrite Ff. auto. }
  destruct EQ as [EQ [EE EF]].
  destruct X2 as [XQ [XE [XF XC]]]. destruct X3 as [YQ [YE [YF YC]]].
  cbn [xDim fullUDim x0 ps_xInit] in YQ, YE, YF, YC. rewrite EQ in YQ. rewrite EE in YE. rewrite EF in YF.
  exists c2, c3. split; [exact E2|]. split; [exact E3|].
  split; [intros; rewrite YQ, XQ by assumption; reflexivity|].
  split; [intros; rewrite YE, XE by assumption; reflexivity|].
  split; [intros; rewrite YF, XF by assumption; reflexivity|].
  split; [exact XC|]. split.
  - intros k Hk. rewrite YC by exact Hk. f_equal.
    + apply sum_ext; intros i Hi. rewrite YE, XE by assumption. reflexivity.
    + rewrite YF, XF by assumption. reflexivity.
  - intro U. rewrite (k_value_x ps R c2 (vget x) U); [|apply S2|exact En2|split; [exact XQ|split; [exact XE|split; [exact XF|exact XC]]]].
    unfold doc_cost. cbn. rewrite K1, K2, K3, K4. reflexivity.
Qed.
Print Assumptions C20_x0_explicit_form.
Example C20_example :
  match initializeCost j0 exps (mkTrajC (mlit [[1; 2]; [0; 1]]%Z) (vlit [1; -1]%Z)) with
  | Ok c1 => match k_updates [(vlit [2; 3]%Z, exps)] c1, k_updates [(vlit [2; 3]%Z, ps_xInit exps (vlit [7; -4]%Z))] c1 with
    | Some a, Some b => qeqb (at_ (kQ a) 0 1) (at_ (kQ b) 0 1) && negb (qeqb (vget (kc a) 0) (vget (kc b) 0))
                        && negb (qeqb (at_ (kE a) 0 1) 0%Qc)
    | _, _ => false end
  | _ => false end = true.
Proof. vm_compute. reflexivity. Qed.

(** ** C21.  [kw] is the vector weights_; [set_w c v] is the object with weights_ replaced by [v]. *)
Theorem C21_weights : forall c w,
  let n := vsize (kw c) in let m := vsize w in
  (m = n -> k_weights c w = Ok (set_w c w)) /\
  (m <> n -> m <> 0 -> Nat.divide m n -> exists v, k_weights c w = Ok (set_w c v) /\ vsize v = n /\
     forall i, i < n -> vget v i = vget w (i mod m)) /\
  (m <> 0 -> ~ Nat.divide m n -> k_weights c w = Throw DomainError c) /\
  (m = 0 -> n <> 0 -> k_weights c w = UB).
Proof.
  intros c w n m. unfold k_weights. fold n m. split; [|split; [|split]].
  - intros E. rewrite E, Nat.eqb_refl. reflexivity.
  - intros E Hm [q Hq]. destruct (Nat.eqb_spec m n); [congruence|]. destruct (Nat.eqb_spec m 0); [congruence|].
    rewrite Hq, Nat.mod_mul by exact Hm. cbn [Nat.eqb]. rewrite Nat.div_mul by exact Hm.
    destruct (for_inv (fun k v => vsize v = n /\ forall i, i < k * m -> vget v i = vget w (i mod m)) 0 q
                (fun i v => setSeg v (i * m) m w) (kw c)) as [v [Ev [Sv Hv]]].
    + lia.
    + split; [reflexivity|]. intros i Hi. cbn in Hi. lia.
    + intros i v Hi [Sv Hv]. rewrite setSeg_ok; [|nia|reflexivity]. eexists. split; [reflexivity|]. cbn [vsize vget].
      split; [exact Sv|]. intros a Ha. destruct (Nat.leb_spec (i * m) a) as [L|L]; cbn [andb].
      * destruct (Nat.ltb_spec a (i * m + m)) as [L2|L2]; [|nia]. f_equal.
        replace a with (i * m + (a - i * m)) at 2 by lia. symmetry. apply blk_rem. lia.
      * apply Hv. exact L.
    + rewrite Ev. cbn [obind of_opt]. exists v. split; [reflexivity|]. split; [rewrite <- Hq; exact Sv|].
      intros i Hi. apply Hv. exact Hi.
  - intros Hm Hd. destruct (Nat.eqb_spec m n) as [E|E]; [exfalso; apply Hd; exists 1; lia|].
    destruct (Nat.eqb_spec m 0); [congruence|].
    destruct (Nat.eqb_spec (n mod m) 0) as [E0|E0]; [|reflexivity]. exfalso. apply Hd. apply Nat.mod_divide; assumption.
  - intros -> Hn. destruct (Nat.eqb_spec 0 n); [congruence|]. reflexivity.
Qed.
Print Assumptions C21_weights.

Theorem C21_weight : forall c x, exists v, k_weight c x = set_w c v /\ vsize v = vsize (kw c) /\ forall i, i < vsize v -> vget v i = x.
Proof. intros. eexists. split; [reflexivity|]. split; reflexivity. Qed.
Print Assumptions C21_weight.

(** nothing else of the object changes, and the number of weights never does *)
Theorem C21_only_weights_change : forall c w v,
  (exists e, k_weights c w = e /\ (e = Ok v \/ exists x, e = Throw x v)) ->
  vsize (kw v) = vsize (kw c) /\ kM v = kM c /\ kN v = kN c /\ kp v = kp c /\ kk v = kk c /\ kfull v = kfull c /\
  kQ v = kQ c /\ kc v = kc c /\ kE v = kE c /\ kf v = kf c.
Proof.
  intros c w v [e [E [-> |[x ->]]]].
  - destruct (C21_weights c w) as [W1 [W2 [W3 W4]]].
    destruct (Nat.eq_dec (vsize w) (vsize (kw c))) as [D|D].
    + rewrite (W1 D) in E. injection E as <-. repeat split. exact D.
    + destruct (Nat.eq_dec (vsize w) 0) as [Z|Z]; [rewrite W4 in E by congruence; discriminate|].
      destruct (Nat.eq_dec (vsize (kw c) mod vsize w) 0) as [M|M].
      * destruct (W2 D Z) as [u [Eu [Su _]]]; [apply Nat.mod_divide; assumption|].
        rewrite Eu in E. injection E as <-. repeat split. exact Su.
      * rewrite W3 in E; [discriminate|exact Z|]. intro Hd. apply M. apply Nat.mod_divide; assumption.
  - destruct (C21_weights c w) as [W1 [W2 [W3 W4]]].
    destruct (Nat.eq_dec (vsize w) (vsize (kw c))) as [D|D].
    + rewrite (W1 D) in E. discriminate E.
    + destruct (Nat.eq_dec (vsize w) 0) as [Z|Z]; [rewrite W4 in E by congruence; discriminate|].
      destruct (Nat.eq_dec (vsize (kw c) mod vsize w) 0) as [M|M].
      * destruct (W2 D Z) as [u [Eu _]]; [apply Nat.mod_divide; assumption|]. rewrite Eu in E. discriminate E.
      * rewrite W3 in E; [|exact Z|intro Hd; apply M; apply Nat.mod_divide; assumption]. injection E as _ <-. repeat split.
Qed.
Print Assumptions C21_only_weights_change.
Example C21_example :
  let c := mkTrajC (mlit [[1; 0]; [0; 1]; [1; 1]; [2; 1]]%Z) (vlit [1; 2; 3; 4]%Z) in
  match k_weights c (vlit [5; 7]%Z) with
  | Ok d => forallb (fun p => qeqb (fst p) (snd p)) (combine (vdump (kw d)) (vdump (vlit [5; 7; 5; 7]%Z))) && Nat.eqb (vsize (kw d)) 4
  | _ => false end = true /\
  match k_weights c (vlit [5; 7; 9]%Z) with Throw DomainError d => Nat.eqb (vsize (kw d)) 4 | _ => false end = true.
Proof. split; vm_compute; reflexivity. Qed.

(** ** C22 (object level): accepted exactly on the documented shapes; the data of a rejected cost are kept. *)
Theorem C22_initialize : forall j ps c,
  (valid_cost_shape ps c -> exists c1, initializeCost j ps c = Ok c1 /\
     kk c1 = kk c /\ kM c1 = kM c /\ kN c1 = kN c /\ kp c1 = kp c /\ kw c1 = kw c) /\
  (~ valid_cost_shape ps c -> exists c1, initializeCost j ps c = Throw DomainError c1 /\
     kk c1 = kk c /\ kfull c1 = kfull c /\ kM c1 = kM c /\ kN c1 = kN c /\ kp c1 = kp c /\ kw c1 = kw c).
Proof.
  intros j ps c. unfold valid_cost_shape, initializeCost. destruct (kk c) eqn:K.
  - unfold trajC_init. cbn [k_resize set_qp kM kN kp].
    destruct (Nat.eqb_spec (rows (kM c)) (vsize (kp c))) as [E1|E1]; cbn [negb];
      [destruct (Nat.eqb_spec (cols (kM c)) (xDim ps)) as [E2|E2]; [|destruct (Nat.eqb_spec (cols (kM c)) (fullXDim ps)) as [E3|E3]]|];
      split; intro H; try (exfalso; tauto); eexists; (split; [reflexivity|]); repeat split; exact K.
  - unfold targetC_init. cbn [k_resize set_qp kM kN kp].
    destruct (Nat.eqb_spec (rows (kM c)) (vsize (kp c))) as [E1|E1]; cbn [negb];
      [destruct (Nat.eqb_spec (cols (kM c)) (xDim ps)) as [E2|E2]|]; cbn [negb];
      split; intro H; try (exfalso; tauto); eexists; (split; [reflexivity|]); repeat split; exact K.
  - unfold ctrlC_init. cbn [k_resize set_qp kM kN kp].
    destruct (Nat.eqb_spec (rows (kN c)) (vsize (kp c))) as [E1|E1]; cbn [negb];
      [destruct (Nat.eqb_spec (cols (kN c)) (uDim ps)) as [E2|E2]; [|destruct (Nat.eqb_spec (cols (kN c)) (fullUDim ps)) as [E3|E3]]|];
      split; intro H; try (exfalso; tauto); eexists; (split; [reflexivity|]); repeat split; exact K.
  - unfold mixedC_init. cbn [k_resize set_qp kM kN kp].
    destruct (Nat.eqb_spec (rows (kM c)) (vsize (kp c))) as [E1|E1]; cbn [negb];
      [destruct (Nat.eqb_spec (rows (kN c)) (vsize (kp c))) as [E1'|E1']; cbn [negb]|];
      [destruct (Nat.eqb_spec (cols (kM c)) (xDim ps)) as [E2|E2]; destruct (Nat.eqb_spec (cols (kN c)) (uDim ps)) as [E2'|E2'];
       destruct (Nat.eqb_spec (cols (kM c)) (fullXDim ps)) as [E3|E3]; destruct (Nat.eqb_spec (cols (kN c)) (fullUDim ps)) as [E3'|E3']; cbn [andb]| |];
      split; intro H; try (exfalso; tauto); eexists; (split; [reflexivity|]); repeat split; exact K.
Qed.
Print Assumptions C22_initialize.
Example C22_example :
  (exists c, valid_cost_shape exps c /\ kk c = MixedCost) /\
  (match initializeCost j0 exps (mkMixedC (mlit [[1; 2]]%Z) (mlit [[1; 1; 1]]%Z) (vlit [1]%Z)) with Throw DomainError _ => true | _ => false end = true).
Proof.
  split; [|vm_compute; reflexivity]. exists (mkMixedC (mlit [[1; 2]]%Z) (mlit [[1]]%Z) (vlit [1]%Z)).
  split; [|reflexivity]. cbn. auto.
Qed.
