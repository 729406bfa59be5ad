(** Properties_Problem.v -- C19, C30, C45: which problem each solve poses. *)
From Verif Require Import Base Eigen Spec Preview SpecApi PreviewProofs AutoSpan AutoSpanProofs Constraints ConstraintProofs
  SpecConstraints ConstraintMeaning Checkers Costs SpecCosts CostProofs CostMeaning Properties_Costs Controller Registry SpecController Assembly
  Results Properties_Assembly Properties_Results SpecProtocol Protocol Properties_Protocol SpecEndToEnd SpanData Properties_Registry
  EndToEnd EndToEndQP EndToEndRows EndToEndMain Convex ExactSolver Properties_EndToEnd Determined.

Lemma follows_prefix n m N : forall h1 h2 w, follows_protocol n m N w (h1 ++ h2) -> follows_protocol n m N w h1.
Proof.
  induction h1 as [|o t IH]; intros h2 w H; [exact I|]. cbn in *. destruct H as [H1 H2]. split; [exact H1|]. destruct (step w o); eauto.
Qed.
Lemma honest_solves : forall es h w, honest w h -> honest w (h ++ map OSolve es).
Proof.
  intros es. induction h as [|o t IH]; intros w H; cbn in *.
  - clear H. revert w. induction es as [|e r IH]; intro w; cbn; [exact I|]. split; [exact I|]. destruct (solve e w) as [[? ?]|]; [apply IH|exact I].
  - destruct H as [H1 H2]. split; [exact H1|]. destruct (step w o); auto.
Qed.
Lemma run_solve w h e v : run w (h ++ [OSolve e]) = Some v -> exists u b, run w h = Some u /\ solve e u = Some (b, v).
Proof.
  rewrite run_app. destruct (run w h) as [u|]; [|discriminate]. cbn [obind run step].
  destruct (solve e u) as [[b v']|] eqn:E; [|discriminate]. intro H. injection H as <-. exists u, b. auto.
Qed.
Lemma filter_all {A} (f : A -> bool) l : (forall x, In x l -> f x = true) -> filter f l = l.
Proof. induction l as [|x t IH]; intro H; cbn; [reflexivity|]. rewrite (H x (or_introl eq_refl)), IH; [reflexivity|]. intros; apply H; right; assumption. Qed.

Lemma acc_accumulates D ps c : same_dims ps D -> k_inited D c -> k_acc c = accumulates ps c.
Proof.
  intros SD [_ En]. assert (X : xDim ps = xDim D) by apply SD. assert (Y : uDim ps = uDim D) by apply SD. unfold accumulates. rewrite X, Y.
  unfold k_acc, k_entry in *. destruct (kk c); try reflexivity; rewrite En, negb_involutive; reflexivity.
Qed.
Lemma k_same_alike c d : k_same c d -> k_alike c d.
Proof.
  intros [K1 [K2 [K3 [K4 [K5 K6]]]]]. unfold k_alike. rewrite (k_given_eq c d K1 K3 K4 K5), K1, K2, K6. repeat split; auto. apply cost_alike_refl.
Qed.
Lemma c_alike_trans a b c : c_alike a b -> c_alike b c -> c_alike a c.
Proof.
  unfold c_alike. intros [A1 [A2 [A3 [A4 [A5 A6]]]]] [B1 [B2 [B3 [B4 [B5 B6]]]]]. rewrite <- A1 in *.
  split; [congruence|]. split; [|split; [congruence|split; [congruence|split; [eapply con_alike_trans; eassumption|split]]]]; intros.
  - rewrite A2, B2 by assumption. reflexivity.
  - destruct (A6 H), (B6 H). congruence.
  - destruct (A6 H), (B6 H). congruence.
Qed.
Lemma c_alike_refl c : c_alike c c. Proof. repeat split; auto. apply con_alike_refl. Qed.
Lemma k_alike_trans a b c : k_alike a b -> k_alike b c -> k_alike a c.
Proof. unfold k_alike, veq. intros [A1 [A2 [A3 [A4 A5]]]] [B1 [B2 [B3 [B4 B5]]]]. split; [congruence|]. split; [|split; [eapply cost_alike_trans; eassumption|split; [congruence|]]].
  - intro T. rewrite A2 by exact T. apply B2. congruence.
  - intros i Hi. rewrite A5, B5 by lia. reflexivity. Qed.
Lemma k_alike_refl c : k_alike c c. Proof. repeat split; auto. apply cost_alike_refl. Qed.

(** ** C19: solving again poses the same problem, when no per-step trajectory or mixed cost is registered *)
Section Again.
Variables (n m N : nat) (h : list op) (w : world) (p : nat).
Hypotheses (SF : sizes_fit n m N) (HO : honest world0 h) (RE : reached h w) (Ep : m_ps (ctl w) = Some p) (NI : m_is (ctl w) = None).
Hypotheses (OC : forall i, In i (spC (ctl w)) -> 0 < hcon w i) (OK : forall i, In i (spCost (ctl w)) -> 0 < hcost w i).
Definition unchanged (u : world) : Prop :=
  m_ps (ctl u) = Some p /\ m_is (ctl u) = None /\ ps_alike (wps w p) (wps u p) /\
  spC (ctl w) = spC (ctl u) /\ spCost (ctl w) = spCost (ctl u) /\ spB (ctl w) = spB (ctl u) /\
  (forall i, In i (spC (ctl w)) -> c_alike (wcon w i) (wcon u i)) /\ (forall i, In i (spCost (ctl w)) -> k_alike (wcost w i) (wcost u i)) /\
  hcon u = hcon w /\ hcost u = hcost w /\
  (spB (ctl w) = [] -> qlb (m_qp (ctl w)) = qlb (m_qp (ctl u)) /\ qub (m_qp (ctl w)) = qub (m_qp (ctl u))).
Lemma unchanged_refl : unchanged w.
Proof using Ep NI. unfold unchanged. repeat split; auto; apply c_alike_refl || apply k_alike_refl. Qed.
Lemma unchanged_solve hu u e b v : follows_protocol n m N world0 hu -> honest world0 hu -> reached hu u -> unchanged u ->
  solve e u = Some (b, v) -> unchanged v /\ solved n m N hu u p e b v.
Proof using SF OC OK.
  intros FP Hh Re [U1 [U2 [U3 [U4 [U5 [U6 [U7 [U8 [U9 [U10 U11]]]]]]]]]] So.
  assert (S : solved n m N hu u p e b v) by (constructor; assumption). split; [|exact S].
  destruct (sd_ps _ _ _ _ _ _ _ _ _ S) as [R [D1 [D2 [X0 [EA [EB [Ed [Ec Ek]]]]]]]].
  destruct (solve_lists e u b v (pi_reg _ _ (sd_pinv _ _ _ _ _ _ _ _ _ S)) So) as [H1 [H2 [L1 [L2 [L3 [L4 L5]]]]]].
  destruct (C28_assembly hu u p e b v Re U1 U2 So) as [_ [_ [_ [_ [_ [_ [_ [_ [_ [_ [B0 _]]]]]]]]]]]. cbv zeta in B0.
  assert (M : m_ps (ctl v) = m_ps (ctl u) /\ m_is (ctl v) = m_is (ctl u)).
  { destruct (solve_qp _ _ _ _ So) as [w1 [Eb [_ [_ [_ [_ [_ _]]]]]]]. destruct (solve_parts _ _ _ _ So) as [w1' [r [Eb' [_ [w4 [E4 Ew]]]]]].
    rewrite Eb in Eb'. injection Eb' as <-. destruct (build_data _ _ _ Eb) as [_ [_ [_ [P1 [I1 _]]]]].
    apply solve_keeps_is in So. destruct So as [S1 S2]. auto. }
  destruct M as [M1 M2].
  assert (KC : spC (ctl v) = spC (ctl u)).
  { rewrite L1. apply filter_all. intros i Hi. unfold survives. rewrite U9, (proj2 (Nat.eqb_neq _ 0)); [reflexivity|]. rewrite <- U4 in Hi. specialize (OC i Hi). lia. }
  assert (KK : spCost (ctl v) = spCost (ctl u)).
  { rewrite L5. apply filter_all. intros i Hi. unfold survives. rewrite U10, (proj2 (Nat.eqb_neq _ 0)); [reflexivity|]. rewrite <- U5 in Hi. specialize (OK i Hi). lia. }
  assert (KB : spB (ctl v) = spB (ctl u)).
  { rewrite L4. apply filter_all. intros i Hi. unfold survives. rewrite U9, (proj2 (Nat.eqb_neq _ 0)); [reflexivity|].
    pose proof (pi_reg _ _ (sd_pinv _ _ _ _ _ _ _ _ _ S)) as RI. rewrite (ri_b _ RI) in Hi. apply in_of_type in Hi as [Hi _]. rewrite <- U4 in Hi. specialize (OC i Hi). lia. }
  split; [congruence|]. split; [congruence|]. split.
  { destruct U3 as [A1 [A2 [A3 [A4 A5]]]]. split; [eapply same_dims_trans; [exact A1|apply same_dims_sym; exact D2]|]. repeat split; congruence. }
  split; [congruence|]. split; [congruence|]. split; [congruence|]. split.
  { intros i Hi. eapply c_alike_trans; [apply (U7 i Hi)|]. apply same_obj_alike. apply (sd_same _ _ _ _ _ _ _ _ _ S i). }
  split.
  { intros i Hi. eapply k_alike_trans; [apply (U8 i Hi)|]. apply k_same_alike. rewrite U5 in Hi. apply (sd_kshape _ _ _ _ _ _ _ _ _ S i Hi). }
  split; [congruence|]. split; [congruence|].
  intro EB0. destruct (U11 EB0) as [V1 V2]. rewrite U6 in EB0. destruct (B0 EB0) as [-> ->]. auto.
Qed.
Lemma solves_unchanged : forall es u, follows_protocol n m N world0 (h ++ map OSolve es) -> run w (map OSolve es) = Some u ->
  unchanged u /\ reached (h ++ map OSolve es) u.
Proof using SF HO RE Ep NI OC OK.
  induction es as [|e es IH] using rev_ind; intros u FP Ru.
  - cbn in Ru. injection Ru as <-. rewrite app_nil_r. split; [apply unchanged_refl|exact RE].
  - rewrite map_app in Ru, FP |- *. rewrite app_assoc in FP |- *. cbn [map] in *. apply run_solve in Ru as [v [b [Rv So]]].
    destruct (IH v (follows_prefix _ _ _ _ _ _ FP) Rv) as [Un Re].
    split; [|unfold reached; rewrite run_app; unfold reached in Re; rewrite Re; cbn [obind run step]; rewrite So; reflexivity].
    eapply unchanged_solve; [apply (follows_prefix _ _ _ _ _ _ FP)|apply honest_solves; exact HO|exact Re|exact Un|exact So].
Qed.
End Again.

Theorem C19_solve_again_partial : forall n m N h w p e1 b1 w1 es u e2 b2 w2,
  sizes_fit n m N -> follows_protocol n m N world0 (h ++ map OSolve (e1 :: es)) -> honest world0 h -> reached h w ->
  m_ps (ctl w) = Some p -> m_is (ctl w) = None ->
  (* the registered objects are owned outside the controller (else they are dropped after the solve, C33), and none is a
     per-step trajectory or mixed cost *)
  (forall i, In i (spC (ctl w)) -> 0 < hcon w i) -> (forall i, In i (spCost (ctl w)) -> 0 < hcost w i) ->
  (forall i, In i (spCost (ctl w)) -> accumulates (wps w p) (wcost w i) = false) ->
  (* a solve, any number of further solves, and one more *)
  solve e1 w = Some (b1, w1) -> run w1 (map OSolve es) = Some u -> solve e2 u = Some (b2, w2) ->
  qp_same (m_qp (ctl w1)) (m_qp (ctl w2)).
Proof.
  intros n m N h w p e1 b1 w1 es u e2 b2 w2 SF FP HO RE Ep NI OC OK NA So1 Ru So2.
  assert (Ru' : run w (map OSolve (e1 :: es)) = Some u) by (cbn [map run step]; rewrite So1; exact Ru).
  destruct (solves_unchanged n m N h w p SF HO RE Ep NI OC OK (e1 :: es) u FP Ru') as [Un Re].
  pose proof (unchanged_solve n m N w p SF OC OK _ _ _ _ _ FP (honest_solves (e1 :: es) h world0 HO) Re Un So2) as [_ S2].
  pose proof (unchanged_solve n m N w p SF OC OK _ _ _ _ _ (follows_prefix _ _ _ _ _ _ FP) HO RE (unchanged_refl w p Ep NI) So1) as [_ S1].
  destruct Un as [U1 [U2 [U3 [U4 [U5 [U6 [U7 [U8 [U9 [U10 U11]]]]]]]]]].
  eapply two_solves; [exact S1|exact S2|exact U3|exact U4|exact U7|exact U5|exact U8| |exact NI|exact U2|].
  - intros i Hi A. exfalso. pose proof (sd_pinv _ _ _ _ _ _ _ _ _ S1) as P.
    destruct (pi_m _ _ P p Ep) as [Np _]. destruct (pi_ps _ _ P p Np) as [SD _].
    rewrite (acc_accumulates _ _ _ SD (pi_rcost _ _ P i Hi)), (NA i Hi) in A. discriminate A.
  - destruct (spB (ctl w)) eqn:Eb; [right|left; discriminate]. destruct (U11 eq_refl) as [-> ->]. split; split; auto.
Qed.
Print Assumptions C19_solve_again_partial.

(** a controller with an equality, an inequality, a bound, an autospanned control cost and a target cost; solved four times,
    with a failure in between *)
Definition ex19 : list op := h_start ++
  [ONewCon d_traj; ONewCon d_eq; ONewCon d_bound; ONewCost d_cost; ONewCost (DCtrlC (mlit [[1]]%Z) (vlit [2; 3; 4]%Z)); OSpanCost j0 1; OWeight 0 (qz 3);
   OAddCon j0 0; OAddCon j0 1; OAddCon j0 2; OAddCost j0 0; OAddCost j0 1].
Example C19_example :
  sizes_fit 2 1 3 /\ follows_protocol 2 1 3 world0 (ex19 ++ map OSolve [env_ok; env_fail; env_ok]) /\ honest world0 ex19 /\
  match run world0 ex19 with
  | Some w => match m_ps (ctl w), m_is (ctl w), solve env_ok w, run w (map OSolve [env_ok; env_fail; env_ok]) with
              | Some p, None, Some (true, w1), Some u =>
                  forallb (fun i => 0 <? hcon w i) (spC (ctl w)) && forallb (fun i => 0 <? hcost w i) (spCost (ctl w)) &&
                  forallb (fun i => negb (accumulates (wps w p) (wcost w i))) (spCost (ctl w)) && Nat.eqb (length (spCost (ctl w))) 2 &&
                  match solve env_ok u with Some (true, w2) => true | _ => false end
              | _, _, _, _ => false end
  | None => false end = true.
Proof.
  split; [repeat split; lia|]. split.
  - apply followsb_ok; [|vm_compute; reflexivity]. intros e H. cbn in H. repeat (destruct H as [H|H]; [try discriminate H|]); try contradiction;
      injection H as <-; apply env_with_sane; reflexivity.
  - split; [apply honestb_ok; vm_compute; reflexivity|vm_compute; reflexivity].
Qed.

(** ** C19 is false of per-step mixed costs: same controller, same system, exact solver, owned cost; the second control is
    half as large again as the first *)
Definition ex19r : list op :=
  [OPs 0 (PSystem (mlit [[1]]%Z) (mlit [[1]]%Z) (vlit [0]%Z) (vlit [0]%Z) 1); OConstruct j0 (CLMPCps 0) qempty;
   ONewCost (DMixedC (mlit [[1]]%Z) (mlit [[1]]%Z) (vlit [4]%Z)); OAddCost j0 0].
Definition env19 : senv := env_certs
  [Cert [(qz 4 / (qz 1 + q1em6))%Qc] [] [] [] [((qz 1 + q1em6)%Qc, [qz 1])];
   Cert [(qz 12 / (qz 2 + q1em6))%Qc] [] [] [] [((qz 2 + q1em6)%Qc, [qz 1])]].
Theorem C19_refuted : exists h w e w1 w2,
  follows_protocol 1 1 1 world0 (h ++ [OSolve e; OSolve e]) /\ honest world0 h /\ reached h w /\ m_is (ctl w) = None /\
  spC (ctl w) = [] /\ spCost (ctl w) = [0] /\ 0 < hcost w 0 /\
  nth_error (new_costs h) 0 = Some (DMixedC (mlit [[1]]%Z) (mlit [[1]]%Z) (vlit [4]%Z)) /\
  exact_solver e /\ solve e w = Some (true, w1) /\ solve e w1 = Some (true, w2) /\
  ~ qp_same (m_qp (ctl w1)) (m_qp (ctl w2)) /\ (vget (m_ctrl (ctl w1)) 0 + 1 < vget (m_ctrl (ctl w2)) 0)%Qc.
Proof.
  assert (C : match run world0 ex19r with
    | Some w => match m_is (ctl w), solve env19 w with
                | None, Some (true, w1) => match solve env19 w1 with
                    | Some (true, w2) =>
                       match spC (ctl w), spCost (ctl w) with [], [0] => true | _, _ => false end && (0 <? hcost w 0) &&
                       (Nat.eqb (vsize (qc (m_qp (ctl w1)))) 1) &&
                       negb (qeqb (vget (qc (m_qp (ctl w1))) 0) (vget (qc (m_qp (ctl w2))) 0)) &&
                       negb (qleb (vget (m_ctrl (ctl w2)) 0) (vget (m_ctrl (ctl w1)) 0 + 1)%Qc)
                    | _ => false end
                | _, _ => false end
    | None => false end = true) by (vm_compute; reflexivity).
  destruct (run world0 ex19r) as [w|] eqn:Er; [|discriminate C].
  destruct (m_is (ctl w)) eqn:Ei; [discriminate C|].
  destruct (solve env19 w) as [[[|] w1]|] eqn:E1; try discriminate C. destruct (solve env19 w1) as [[[|] w2]|] eqn:E2; try discriminate C.
  repeat (apply andb_true_iff in C as [C ?]).
  destruct (spC (ctl w)) eqn:L1; [|discriminate C]. destruct (spCost (ctl w)) as [|[|x] [|y l]] eqn:L2; try discriminate C.
  exists ex19r, w, env19, w1, w2. split.
  { apply followsb_ok; [|vm_compute; reflexivity]. intros e Hh. cbn in Hh. repeat (destruct Hh as [Hh|Hh]; [try discriminate Hh|]); try contradiction;
      injection Hh as <-; apply env_certs_sane. }
  split; [apply honestb_ok; vm_compute; reflexivity|]. split; [exact Er|]. do 3 (split; [first [assumption|reflexivity]|]).
  split; [apply Nat.ltb_lt; assumption|]. split; [reflexivity|]. split; [apply env_certs_exact|]. split; [exact E1|]. split; [exact E2|]. split.
  - intros [_ [[Vs Ve] _]]. apply Nat.eqb_eq in H1. specialize (Ve 0 ltac:(lia)). apply qeqb_ok in Ve. rewrite Ve in H0. discriminate H0.
  - apply Qcnot_le_lt. intro G. apply qleb_ok in G. rewrite G in H. discriminate H.
Qed.
Print Assumptions C19_refuted.

(** ** C30: the problem depends only on the system and on what is registered *)
Theorem C30_registered_data_only_partial : forall n m N h1 h2 w1 w2 p1 p2 e1 e2 b1 b2 v1 v2,
  sizes_fit n m N ->
  (* two histories of calls, with possibly different additions and removals *)
  follows_protocol n m N world0 h1 -> callable world0 h1 -> honest world0 h1 -> reached h1 w1 ->
  follows_protocol n m N world0 h2 -> callable world0 h2 -> honest world0 h2 -> reached h2 w2 ->
  m_ps (ctl w1) = Some p1 -> m_ps (ctl w2) = Some p2 -> m_is (ctl w1) = None -> m_is (ctl w2) = None ->
  same_system (wps w1 p1) (wps w2 p2) ->
  (* the same constraints and costs are registered in the end, with the same data and weights *)
  same_registered h1 w1 h2 w2 ->
  (* per-step costs were not already solved with (C19), and no solve left bounds behind *)
  fresh_steps (wps w1 p1) h1 (spCost (ctl w1)) -> fresh_steps (wps w2 p2) h2 (spCost (ctl w2)) ->
  (spB (ctl w1) <> [] \/ (stale world0 false h1 = false /\ stale world0 false h2 = false)) ->
  solve e1 w1 = Some (b1, v1) -> solve e2 w2 = Some (b2, v2) ->
  qp_same (m_qp (ctl v1)) (m_qp (ctl v2)).
Proof.
  intros n m N h1 h2 w1 w2 p1 p2 e1 e2 b1 b2 v1 v2 SF F1 C1 H1 R1 F2 C2 H2 R2 P1 P2 I1 I2 SS [LC [DC [LK DK]]] FS1 FS2 ST So1 So2.
  assert (S1 : solved n m N h1 w1 p1 e1 b1 v1) by (constructor; assumption).
  assert (S2 : solved n m N h2 w2 p2 e2 b2 v2) by (constructor; assumption).
  pose proof (sd_pinv _ _ _ _ _ _ _ _ _ S1) as Q1. pose proof (sd_pinv _ _ _ _ _ _ _ _ _ S2) as Q2.
  destruct (pi_m _ _ Q1 p1 P1) as [Np1 Sz1]. destruct (pi_ps _ _ Q1 p1 Np1) as [SD1 _].
  destruct (pi_m _ _ Q2 p2 P2) as [Np2 Sz2]. destruct (pi_ps _ _ Q2 p2 Np2) as [SD2 _].
  unfold opt in Sz1, Sz2. rewrite I1 in Sz1. rewrite I2 in Sz2.
  destruct (con_inv_holds n m N SF h1 w1 F1 R1) as [CL1 CI1]. destruct (con_inv_holds n m N SF h2 w2 F2 R2) as [CL2 CI2].
  destruct (cost_inv_holds n m N SF h1 w1 F1 R1) as [KL1 KI1]. destruct (cost_inv_holds n m N SF h2 w2 F2 R2) as [KL2 KI2].
  specialize (CI1 C1). specialize (CI2 C2). specialize (KI1 C1). specialize (KI2 C2).
  assert (GK : forall i, In i (spCost (ctl w1)) -> exists d d', cost_data_of h1 i = Some d /\ cost_data_of h2 i = Some d' /\
            cost_alike (k_given (wcost w1 i)) d /\ cost_alike (k_given (wcost w2 i)) d' /\ cost_alike d d' /\ veq (kw (wcost w1 i)) (kw (wcost w2 i))).
  { intros i Hi. destruct (DK i Hi) as [E W]. unfold same_cost_data in E.
    destruct (cost_data_of h1 i) as [d|] eqn:Ed; [|contradiction]. destruct (cost_data_of h2 i) as [d'|] eqn:Ed'; [|contradiction].
    exists d, d'. destruct (KI1 i d Ed) as [G1 V1]. destruct (KI2 i d' Ed') as [G2 V2].
    do 5 (split; [assumption || reflexivity|]). eapply veq_trans; [exact V1|]. eapply veq_trans; [exact W|]. apply veq_sym. exact V2. }
  eapply two_solves; [exact S1|exact S2| |exact LC| |exact LK| | |exact I1|exact I2|].
  - destruct SS as [A1 [A2 [A3 A4]]]. split; [eapply same_dims_trans; [exact SD1|apply same_dims_sym; exact SD2]|]. auto.
  - intros i Hi. destruct (DC i Hi) as [E [N1 N2]]. unfold same_con_data in E.
    destruct (con_data_of h1 i) as [d|] eqn:Ed; [|contradiction]. destruct (con_data_of h2 i) as [d'|] eqn:Ed'; [|contradiction].
    destruct (CI1 i d Ed) as [G1 L1]. destruct (CI2 i d' Ed') as [G2 L2].
    eapply given_alike; [apply (pi_rcon _ _ Q1 i Hi)|rewrite LC in Hi; apply (pi_rcon _ _ Q2 i Hi)|exact (L1 N1)|exact (L2 N2)|].
    eapply con_alike_trans; [exact G1|]. eapply con_alike_trans; [exact E|]. apply con_alike_sym. exact G2.
  - intros i Hi. destruct (GK i Hi) as [d [d' [_ [_ [G1 [G2 [G W]]]]]]]. pose proof (pi_rcost _ _ Q1 i Hi) as [_ En1]. pose proof Hi as Hi2. rewrite LK in Hi2. pose proof (pi_rcost _ _ Q2 i Hi2) as [_ En2].
    assert (GE : cost_alike (k_given (wcost w1 i)) (k_given (wcost w2 i))).
    { eapply cost_alike_trans; [exact G1|]. eapply cost_alike_trans; [exact G|]. apply cost_alike_sym. exact G2. }
    assert (K : kk (wcost w1 i) = kk (wcost w2 i)) by (unfold k_given in GE; destruct (kk (wcost w1 i)), (kk (wcost w2 i)); reflexivity || destruct GE).
    split; [exact K|]. split; [intro T|split; [exact GE|exact W]].
    pose proof GE as GE'. unfold k_given in GE'. unfold k_entry in En1, En2. rewrite <- K in *. destruct (kk (wcost w1 i)) eqn:Qk.
    + destruct GE' as [[_ [E1 _]] E2]. rewrite En1, En2, E1. reflexivity.
    + contradiction T. reflexivity.
    + destruct GE' as [[_ [E1 _]] E2]. rewrite En1, En2, E1. reflexivity.
    + destruct GE' as [[_ [E1 _]] [[_ [E2 _]] E3]]. rewrite En1, En2, E1, E2. reflexivity.
  - intros i Hi A. destruct (GK i Hi) as [d [d' [D1 [D2 [G1 [G2 [G W]]]]]]]. pose proof Hi as Hi2. rewrite LK in Hi2.
    assert (PS1 : per_step (wps w1 p1) d = true).
    { rewrite <- (per_step_alike _ _ _ G1). rewrite (acc_accumulates _ _ _ SD1 (pi_rcost _ _ Q1 i Hi)) in A. unfold accumulates, per_step, k_given in *. destruct (kk (wcost w1 i)); exact A. }
    assert (PS2 : per_step (wps w2 p2) d' = true).
    { rewrite <- (per_step_alike _ _ _ G). unfold per_step in *. assert (X : xDim (wps w2 p2) = xDim (wps w1 p1)) by (transitivity (xDim (dps n m N)); [apply SD2|symmetry; apply SD1]).
      assert (Y : uDim (wps w2 p2) = uDim (wps w1 p1)) by (transitivity (uDim (dps n m N)); [apply SD2|symmetry; apply SD1]). rewrite X, Y. exact PS1. }
    destruct (FS1 i d Hi D1 PS1) as [A1 B1']. destruct (FS2 i d' Hi2 D2 PS2) as [A2 B2'].
    split; [apply (zero_inv_holds n m N SF h1 w1 F1 R1 C1 i A1 Hi)|]. split; [apply (zero_inv_holds n m N SF h2 w2 F2 R2 C2 i A2 Hi2)|exact B1'].
  - destruct ST as [ST|[ST1 ST2]]; [left; exact ST|right].
    destruct (free_inv h1 w1 R1 I1 ST1) as [L1 U1]. destruct (free_inv h2 w2 R2 I2 ST2) as [L2 U2].
    destruct Sz1 as [_ [_ [_ [Y1 Y2]]]]. destruct Sz2 as [_ [_ [_ [Y1' Y2']]]].
    split; (split; [congruence|]); intros r Hr; [rewrite L1, L2 by lia|rewrite U1, U2 by lia]; reflexivity.
Qed.
Print Assumptions C30_registered_data_only_partial.

(** one controller got its objects once, the other in another order, was solved, lost some and got them back, with
    other objects coming and going and the weight set differently on the way *)
Definition new30 : list op :=
  [ONewCon d_traj; ONewCon d_eq; ONewCon (DCtrlB (elit [fin (-3)]) (elit [fin 3; fin 3; fin 3])); OSpanCon j0 2;
   ONewCost d_cost; ONewCost (DTrajC (mlit [[1; 0]]%Z) (vlit [4]%Z))].
(** the same bounds, given for each step *)
Definition new30b : list op :=
  [ONewCon d_traj; ONewCon d_eq; ONewCon (DCtrlB (elit [fin (-3); fin (-3); fin (-3)]) (elit [fin 3; fin 3; fin 3]));
   ONewCost d_cost; ONewCost (DTrajC (mlit [[1; 0]]%Z) (vlit [4]%Z)); OSpanCost j0 0].
Definition ex30a : list op := h_start ++ new30 ++ [OWeight 0 (qz 3); OAddCon j0 0; OAddCon j0 1; OAddCon j0 2; OAddCost j0 0; OAddCost j0 1].
Definition ex30b : list op := h_start ++ new30b ++
  [OAddCon j0 0; OAddCost j0 1; OSolve env_ok; ONewCon (DCtrl (mlit [[1]]%Z) (elit [fin 1]) true); OAddCon j0 3; OAddCost j0 0;
   OSolve env_fail; ORemoveCost 1; ORemoveCon 0; OAddCon j0 0; OAddCon j0 1; OAddCon j0 2; OWeight 0 (qz 7); OSolve env_ok; ORemoveCon 3; OWeights 0 (vlit [3]%Z); OAddCost j0 1].
Example C30_example :
  sizes_fit 2 1 3 /\ follows_protocol 2 1 3 world0 ex30a /\ callable world0 ex30a /\ honest world0 ex30a /\
  follows_protocol 2 1 3 world0 ex30b /\ callable world0 ex30b /\ honest world0 ex30b /\
  (forall i, i < 3 -> same_con_data (con_data_of ex30a i) (con_data_of ex30b i) /\ even_bounds ex30a i /\ even_bounds ex30b i) /\
  (forall i, i < 2 -> same_cost_data (cost_data_of ex30a i) (cost_data_of ex30b i) /\ veq (weights_of ex30a i) (weights_of ex30b i)) /\
  added_since_solve ex30a 1 /\ added_since_solve ex30b 1 /\
  match run world0 ex30a, run world0 ex30b with
  | Some w1, Some w2 =>
      match m_ps (ctl w1), m_ps (ctl w2), m_is (ctl w1), m_is (ctl w2), solve env_ok w1, solve env_ok w2 with
      | Some 0, Some 0, None, None, Some (true, _), Some (true, _) =>
          match spC (ctl w1), spC (ctl w2), spCost (ctl w1), spCost (ctl w2), spB (ctl w1) with [0; 1; 2], [0; 1; 2], [0; 1], [0; 1], [2] => true | _, _, _, _, _ => false end
      | _, _, _, _, _, _ => false end
  | _, _ => false end = true.
Proof.
  assert (FB : forall h, (forall e, In (OSolve e) h -> e = env_ok \/ e = env_fail) -> followsb 2 1 3 world0 h = true -> follows_protocol 2 1 3 world0 h).
  { intros h He. apply followsb_ok. intros e H. destruct (He e H) as [-> | ->]; apply env_with_sane; reflexivity. }
  split; [repeat split; lia|]. split; [apply FB; [|vm_compute; reflexivity]; intros e H; cbn in H; repeat (destruct H as [H|H]; [discriminate H|]); contradiction|].
  split; [apply callableb_ok; vm_compute; reflexivity|]. split; [apply honestb_ok; vm_compute; reflexivity|].
  split; [apply FB; [|vm_compute; reflexivity]; intros e H; cbn in H; repeat (destruct H as [H|H]; [try discriminate H; injection H as <-; auto|]); contradiction|].
  split; [apply callableb_ok; vm_compute; reflexivity|]. split; [apply honestb_ok; vm_compute; reflexivity|].
  split.
  { intros i Hi. split; [|split; intros lo up H; destruct i as [|[|[|i]]]; cbn in H; try discriminate H; try lia].
    destruct i as [|[|[|i]]]; [| | |lia]; cbn [same_con_data].
    - apply con_alike_refl.
    - apply con_alike_refl.
    - split; (split; [reflexivity|]); intros [|[|[|r]]] Hr; cbn in Hr; try lia; reflexivity. }
  split.
  { intros i Hi. destruct i as [|[|i]]; [| |lia]; (split; [apply cost_alike_refl|]); (split; [reflexivity|]);
      intros [|[|[|r]]] Hr; cbn in Hr; try lia; apply Qc_is_canon; reflexivity. }
  split; [exists (removelast ex30a), j0, []; split; [reflexivity|intros e []]|].
  split; [exists (removelast ex30b), j0, []; split; [reflexivity|intros e []]|]. vm_compute. reflexivity.
Qed.

(** ** C30 is false of control bounds: added, solved with, and removed, they still bound the control *)
Definition ex30r : list op := h_start ++ [ONewCon d_bound; ONewCost d_cost; OAddCost j0 0].
Theorem C30_refuted : exists h1 h2 w1 w2 e v1 v2,
  h2 = h1 ++ [OAddCon j0 0; OSolve e; ORemoveCon 0] /\
  follows_protocol 2 1 3 world0 h1 /\ follows_protocol 2 1 3 world0 h2 /\ callable world0 h1 /\ callable world0 h2 /\ honest world0 h1 /\ honest world0 h2 /\
  reached h1 w1 /\ reached h2 w2 /\ nth_error (new_cons h1) 0 = Some d_bound /\
  spC (ctl w1) = [] /\ spC (ctl w2) = [] /\ spCost (ctl w1) = [0] /\ spCost (ctl w2) = [0] /\
  solve e w1 = Some (true, v1) /\ solve e w2 = Some (true, v2) /\
  (* without the constraint the control is free; with it added and removed it is still bounded *)
  (vget (qub (m_qp (ctl v1))) 0 = no_upper /\ vget (qub (m_qp (ctl v2))) 0 = Fin (qz 9)) /\ ~ qp_same (m_qp (ctl v1)) (m_qp (ctl v2)).
Proof.
  pose (h2 := ex30r ++ [OAddCon j0 0; OSolve env_ok; ORemoveCon 0]).
  assert (C : match run world0 ex30r, run world0 h2 with
    | Some w1, Some w2 => match solve env_ok w1, solve env_ok w2 with
        | Some (true, v1), Some (true, v2) =>
            match spC (ctl w1), spC (ctl w2), spCost (ctl w1), spCost (ctl w2) with [], [], [0], [0] => true | _, _, _, _ => false end &&
            Nat.eqb (vsize (qub (m_qp (ctl v1)))) 3 &&
            match vget (qub (m_qp (ctl v1))) 0, no_upper with Fin a, Fin b => qeqb a b | _, _ => false end &&
            match vget (qub (m_qp (ctl v2))) 0 with Fin a => qeqb a (qz 9) | _ => false end
        | _, _ => false end
    | _, _ => false end = true) by (vm_compute; reflexivity).
  destruct (run world0 ex30r) as [w1|] eqn:R1; [|discriminate C]. destruct (run world0 h2) as [w2|] eqn:R2; [|discriminate C].
  destruct (solve env_ok w1) as [[[|] v1]|] eqn:S1; try discriminate C. destruct (solve env_ok w2) as [[[|] v2]|] eqn:S2; try discriminate C.
  apply andb_true_iff in C as [C C4]. apply andb_true_iff in C as [C C3]. apply andb_true_iff in C as [C C2]. apply Nat.eqb_eq in C2.
  destruct (spC (ctl w1)) eqn:L1; [|discriminate C]. destruct (spC (ctl w2)) eqn:L2; [|discriminate C].
  destruct (spCost (ctl w1)) as [|[|?] [|? ?]] eqn:L3; try discriminate C. destruct (spCost (ctl w2)) as [|[|?] [|? ?]] eqn:L4; try discriminate C.
  assert (U1 : vget (qub (m_qp (ctl v1))) 0 = no_upper).
  { destruct (vget (qub (m_qp (ctl v1))) 0) as [|a|]; try discriminate C3. unfold no_upper in *. f_equal. apply qeqb_ok. exact C3. }
  assert (U2 : vget (qub (m_qp (ctl v2))) 0 = Fin (qz 9)).
  { destruct (vget (qub (m_qp (ctl v2))) 0) as [|a|]; try discriminate C4. f_equal. apply qeqb_ok. exact C4. }
  exists ex30r, h2, w1, w2, env_ok, v1, v2. split; [reflexivity|].
  do 2 (split; [apply followsb_ok; [|vm_compute; reflexivity]; intros e H; cbn in H; repeat (destruct H as [H|H]; [try discriminate H; try (injection H as <-; apply env_with_sane; reflexivity)|]); contradiction|]).
  do 2 (split; [apply callableb_ok; vm_compute; reflexivity|]). do 2 (split; [apply honestb_ok; vm_compute; reflexivity|]).
  split; [exact R1|]. split; [exact R2|]. split; [reflexivity|]. do 6 (split; [first [assumption|reflexivity]|]). split; [split; assumption|].
  intros [_ [_ [_ [_ [_ [_ [_ [_ E]]]]]]]]. specialize (E 0 ltac:(lia)). rewrite U1, U2 in E.
  apply (f_equal (fun e => match e with Fin a => Qnum (this a) | _ => 0%Z end)) in E. vm_compute in E. discriminate E.
Qed.
Print Assumptions C30_refuted.

(** ** C45: a new initial state is used by the next solve *)
Lemma update_costs_c ps : ready ps -> forall D, same_dims ps D -> forall l wk wk', update_costs ps l wk = Some wk' ->
  (forall i, In i l -> k_inited D (wk i)) ->
  forall i, In i l -> k_acc_c (wk i) = false ->
  forall j, j < fullUDim ps -> vget (kc (wk' i)) j = (sum (xDim ps) (fun a => at_ (kE (wk' i)) a j * vget (x0 ps) a) + vget (kf (wk' i)) j)%Qc.
Proof.
  intros R D SD l wk wk' E KI i Hi NA.
  cut (forall l wk wk', update_costs ps l wk = Some wk' -> (forall i, In i l -> k_inited D (wk i)) -> k_acc_c (wk i) = false ->
         In i l \/ (forall j, j < fullUDim ps -> vget (kc (wk i)) j = (sum (xDim ps) (fun a => at_ (kE (wk i)) a j * vget (x0 ps) a) + vget (kf (wk i)) j)%Qc) ->
         forall j, j < fullUDim ps -> vget (kc (wk' i)) j = (sum (xDim ps) (fun a => at_ (kE (wk' i)) a j * vget (x0 ps) a) + vget (kf (wk' i)) j)%Qc).
  { intro G. eapply G; eauto. }
  clear l wk wk' E KI Hi NA. unfold update_costs. induction l as [|x t IH]; intros wk wk' E KI NA H; cbn [for_list] in E.
  - injection E as <-. destruct H as [[]|H]. exact H.
  - destruct (k_update ps (wk x)) as [c|] eqn:Ec; [|discriminate]. cbn [obind] in E.
    assert (SD' : same_dims D ps) by (apply same_dims_sym; exact SD).
    destruct (k_update_ok ps R (wk x) (k_shape_dims _ _ _ SD' (proj1 (KI x (or_introl eq_refl))))) as [c1 [E1 [K1 [Sh1 [_ [_ [_ Rc]]]]]]].
    rewrite Ec in E1. injection E1 as <-.
    assert (KC : k_inited D c).
    { split; [apply (k_shape_dims ps); assumption|]. destruct (KI x (or_introl eq_refl)) as [_ En].
      destruct K1 as [K1 [K2 [K3 [K4 [K5 K6]]]]]. unfold k_entry in *. rewrite K1, K2, K3, K4. exact En. }
    apply (IH _ _ E).
    + intros k Hk. unfold upd. destruct (Nat.eqb_spec k x); [exact KC|apply KI; right; exact Hk].
    + unfold upd. destruct (Nat.eqb_spec i x) as [->|]; [|exact NA]. unfold k_acc_c in *. destruct K1 as [-> [-> _]]. exact NA.
    + unfold upd. destruct (Nat.eqb_spec i x) as [->|Ne]; [right|destruct H as [[H|H]|H]; [congruence|left; exact H|right; exact H]].
      intros j Hj. rewrite (Rc j Hj), NA. ring.
Qed.
Lemma follows_app_last n m N o : forall h w w1, follows_protocol n m N w (h ++ [o]) -> run w h = Some w1 -> legal n m N w1 o.
Proof.
  induction h as [|x t IH]; intros w w1 F R; cbn in *.
  - injection R as <-. apply F.
  - destruct F as [_ F]. destruct (step w x); try discriminate R; eapply IH; eassumption.
Qed.
Lemma honest_snoc o : forall h w w1, honest w h -> run w h = Some w1 -> honest_op w1 o -> honest w (h ++ [o]).
Proof.
  induction h as [|x t IH]; intros w w1 F R Ho; cbn in *.
  - injection R as <-. split; [exact Ho|]. destruct (step w o); exact I.
  - destruct F as [F1 F2]. split; [exact F1|]. destruct (step w x); try discriminate R; eauto.
Qed.

Theorem C45_next_solve_partial : forall n m N h w p x w1 e b w2,
  sizes_fit n m N -> follows_protocol n m N world0 (h ++ [OPs p (PXInit x)]) -> honest world0 h -> reached h w ->
  m_ps (ctl w) = Some p -> m_is (ctl w) = None ->
  (* ps.xInit(x), then solve() *)
  step w (OPs p (PXInit x)) = Ok w1 -> solve e w1 = Some (b, w2) ->
  let ps := wps w2 p in
  let h' := h ++ [OPs p (PXInit x)] in
  (* the system has x and is otherwise the one of before; its Phi, Psi, xi are not touched when they are up to date *)
  (x0 ps = x /\ psA ps = psA (wps w p) /\ psB ps = psB (wps w p) /\ psd ps = psd (wps w p) /\
   (isUpdated (wps w p) = true -> psPhi ps = psPhi (wps w p) /\ psPsi ps = psPsi (wps w p) /\ psxi ps = psxi (wps w p))) /\
  (* trajectory() starts at x *)
  (b = true -> forall i, i < n -> vget (m_traj (ctl w2)) i = vget x i) /\
  (* b = z - Y x and c = E' x + f, per-step mixed costs excepted (C19) *)
  (forall i, In i (spC (ctl w)) -> ck (wcon w i) <> KCtrlB -> forall r, r < nrConstr (wcon w i) ->
     vget (cb (wcon w2 i)) r = ext_sub (vget (cz (wcon w2 i)) r) (apply n (at_ (cY (wcon w2 i))) (vget x) r)) /\
  (forall i, In i (spCost (ctl w)) -> ~ (kk (wcost w i) = MixedCost /\ accumulates (wps w p) (wcost w i) = true) -> forall j, j < m * N ->
     vget (kc (wcost w2 i)) j = (sum n (fun a => at_ (kE (wcost w2 i)) a j * vget x a) + vget (kf (wcost w2 i)) j)%Qc) /\
  (* the problem has the feasible set and the objective of the problem from x *)
  (callable world0 h' -> (spB (ctl w) <> [] \/ stale world0 false h' = false) -> (forall i, In i (spC (ctl w)) -> even_bounds h i) ->
   forall U, feasible (m_qp (ctl w2)) U <->
     (forall i d, In i (spC (ctl w)) -> con_data_of h i = Some d -> imposes ps d (vget x) U) /\
     (spB (ctl w) = [] -> representable (m * N) U)) /\
  (callable world0 h' -> fresh_steps (wps w p) h' (spCost (ctl w)) ->
   forall U, qp_value (m_qp (ctl w2)) U =
     (total_cost ps h' (spCost (ctl w)) U + regularization (m * N) U - total_cost ps h' (spCost (ctl w)) (fun _ => 0%Qc))%Qc).
Proof.
  intros n m N h w p x w1 e b w2 SF FP HO RE Ep NI St So. cbv zeta. set (h' := h ++ [OPs p (PXInit x)]) in *.
  pose proof (follows_app_last _ _ _ _ _ _ _ FP RE) as Lg. cbn [legal] in Lg. destruct Lg as [Np Sx].
  pose proof (sv_pinv n m N SF h w (follows_prefix _ _ _ _ _ _ FP) RE) as P0. destruct (pi_ps _ _ P0 p Np) as [SD0 _].
  assert (Xd : xDim (wps w p) = n) by apply SD0.
  assert (HO' : honest world0 h') by (apply (honest_snoc _ _ _ w); [exact HO|exact RE|cbn; congruence]).
  assert (RE' : reached h' w1) by (unfold reached, h'; rewrite run_app; unfold reached in RE; rewrite RE; cbn [obind run]; rewrite St; reflexivity).
  cbn [step ps_step] in St. injection St as Ew.
  assert (Ec : ctl w1 = ctl w) by (rewrite <- Ew; reflexivity). assert (Ewc : wcon w1 = wcon w) by (rewrite <- Ew; reflexivity).
  assert (Ewk : wcost w1 = wcost w) by (rewrite <- Ew; reflexivity).
  assert (Ewp : wps w1 p = ps_xInit (wps w p) x) by (rewrite <- Ew; cbn; unfold upd; rewrite Nat.eqb_refl; reflexivity).
  clear Ew.
  assert (Ep1 : m_ps (ctl w1) = Some p) by congruence. assert (NI1 : m_is (ctl w1) = None) by congruence.
  assert (S : solved n m N h' w1 p e b w2) by (constructor; assumption).
  pose proof (sd_pinv _ _ _ _ _ _ _ _ _ S) as P1. destruct (sd_ps _ _ _ _ _ _ _ _ _ S) as [R [D1 [D2 [X0 [EA [EB [Ed [Uc Uk]]]]]]]].
  assert (Xn : xDim (wps w2 p) = n) by apply D1. assert (Un : fullUDim (wps w2 p) = m * N) by apply D1.
  rewrite Ewp in X0, EA, EB, Ed. cbn in X0, EA, EB, Ed.
  assert (NC : new_cons h' = new_cons h) by (unfold new_cons, h'; rewrite flat_map_app; cbn; apply app_nil_r).
  assert (DC : forall i, con_data_of h' i = con_data_of h i).
  { intro i. unfold con_data_of. rewrite NC. unfold h'. rewrite existsb_app. cbn [existsb spans_con]. rewrite !orb_false_r. reflexivity. }
  split.
  { do 4 (split; [assumption|]). intro Up.
    destruct (solve_objs _ _ _ _ So) as [p' [ps [wc [wk [Ep' [Eu [_ [_ [Hw _]]]]]]]]]. rewrite Ep1 in Ep'. injection Ep' as <-.
    rewrite Hw. replace (upd (wps w1) p ps p) with ps by (unfold upd; rewrite Nat.eqb_refl; reflexivity).
    rewrite Ewp in Eu. unfold ensureUpdated in Eu. cbn [isUpdated ps_xInit] in Eu. rewrite Up in Eu. injection Eu as <-. auto. }
  split.
  { intros -> i Hi. destruct (C35_success_publishes h' w1 p e w2 RE' HO' Ep1 NI1) as [_ [Tr _]].
    { rewrite Ewp. exact Np. } { exact So. }
    cbv zeta in Tr. destruct Tr as [_ [_ Tr]]. specialize (Tr 0 i ltac:(lia) ltac:(lia)). cbn [Nat.mul Nat.add] in Tr. rewrite Tr, X0. reflexivity. }
  split.
  { intros i Hi NB r Hr. rewrite <- Ec in Hi. destruct (sd_rows _ _ _ _ _ _ _ _ _ S i Hi) as [_ [[RA _] _]]. rewrite Ewc in RA.
    destruct (RA NB r Hr) as [k [_ [B _]]]. rewrite B, X0, Xn. reflexivity. }
  split.
  { intros i Hi NM j Hj. rewrite <- Ec in Hi. rewrite <- Xn, <- X0. apply (update_costs_c _ R _ D1 _ _ _ Uk (pi_rcost _ _ P1) i Hi); [|lia].
    rewrite Ewk. pose proof (pi_rcost _ _ P1 i Hi) as KI. rewrite Ewk in KI.
    rewrite <- (acc_accumulates _ _ _ SD0 KI) in NM. unfold k_acc_c, k_acc in *. destruct (kk (wcost w i)); try reflexivity.
    destruct (negb (kfull (wcost w i))); [exfalso; apply NM; auto|reflexivity]. }
  split.
  - intros CA ST NS U. rewrite <- Ec in ST, NS.
    assert (NS' : forall i, In i (spC (ctl w1)) -> even_bounds h' i) by (intros i Hi; unfold even_bounds; rewrite NC; exact (NS i Hi)).
    rewrite (sv_feasible n m N SF h' w1 p e b w2 FP RE' HO' Ep1 NI1 So U CA ST NS'). unfold all_imposed. rewrite Un, Ec, X0.
    split; (intros [H1 H2]; split; [|exact H2]); intros i d Hi Hd; (apply (H1 i d Hi); rewrite DC in *; exact Hd).
  - intros CA FS U. rewrite <- Ec in FS.
    assert (DD : same_dims (wps w2 p) (wps w p)) by (eapply same_dims_trans; [exact D1|apply same_dims_sym; exact SD0]).
    rewrite (sv_value n m N SF h' w1 p e b w2 FP RE' HO' Ep1 NI1 So U CA (fresh_steps_dims _ _ _ _ DD FS)). rewrite Un, Ec. reflexivity.
Qed.
Print Assumptions C45_next_solve_partial.

(** a controller with all kinds of objects, solved once; the per-step cost is added anew, the state updated *)
Definition ex45 : list op := ex30a ++ [OSolve env_ok; ORemoveCost 1; OAddCost j0 1].
Definition x45 : vec Qc := vlit [7; -1]%Z.
Example C45_example :
  sizes_fit 2 1 3 /\ follows_protocol 2 1 3 world0 (ex45 ++ [OPs 0 (PXInit x45)]) /\ honest world0 ex45 /\ callable world0 (ex45 ++ [OPs 0 (PXInit x45)]) /\
  (forall i, even_bounds ex45 i) /\
  added_since_solve (ex45 ++ [OPs 0 (PXInit x45)]) 1 /\
  match run world0 ex45 with
  | Some w => match m_ps (ctl w), m_is (ctl w), step w (OPs 0 (PXInit x45)) with
              | Some 0, None, Ok w1 => match solve env_ok w1 with
                  | Some (true, w2) => isUpdated (wps w 0) && match spC (ctl w), spCost (ctl w), spB (ctl w) with [0; 1; 2], [0; 1], [2] => true | _, _, _ => false end &&
                      negb (per_step (wps w 0) d_cost) && qeqb (vget (m_traj (ctl w2)) 0) (qz 7) &&
                      (* the first control of the answer is the same, the rest of the trajectory is another *)
                      negb (qeqb (vget (m_traj (ctl w2)) 2) (vget (m_traj (ctl w)) 2))
                  | _ => false end
              | _, _, _ => false end
  | None => false end = true.
Proof.
  split; [repeat split; lia|].
  split; [apply followsb_ok; [|vm_compute; reflexivity]; intros e H; cbn in H; repeat (destruct H as [H|H]; [try discriminate H; try (injection H as <-; apply env_with_sane; reflexivity)|]); contradiction|].
  split; [apply honestb_ok; vm_compute; reflexivity|]. split; [apply callableb_ok; vm_compute; reflexivity|].
  split; [intros i lo up H; destruct i as [|[|[|i]]]; cbn in H; try discriminate H; destruct i; discriminate H|].
  split; [exists (removelast ex45), j0, [OPs 0 (PXInit x45)]; split; [reflexivity|intros e [H|[]]; discriminate H]|]. vm_compute. reflexivity.
Qed.

(** ** C45 is false of per-step mixed costs: after a solve from 0, the c of the solve from 1 is not the one of 1, which
    a controller built for 1 uses *)
Theorem C45_refuted : exists h w x w1 v v1 e,
  follows_protocol 1 1 1 world0 (h ++ [OSolve e; OPs 0 (PXInit x)]) /\ honest world0 (h ++ [OSolve e; OPs 0 (PXInit x)]) /\
  nth_error (new_costs h) 0 = Some (DMixedC (mlit [[1]]%Z) (mlit [[1]]%Z) (vlit [4]%Z)) /\
  (* solve, xInit(x), solve *)
  reached (h ++ [OSolve e; OPs 0 (PXInit x)]) w /\ spCost (ctl w) = [0] /\ spC (ctl w) = [] /\ solve e w = Some (true, w1) /\
  (* xInit(x), solve *)
  reached (h ++ [OPs 0 (PXInit x)]) v /\ spCost (ctl v) = [0] /\ spC (ctl v) = [] /\ solve e v = Some (true, v1) /\
  m_ps (ctl w) = Some 0 /\ m_ps (ctl v) = Some 0 /\ x0 (wps w1 0) = x /\ x0 (wps v1 0) = x /\
  vget (qc (m_qp (ctl v1))) 0 = qz (-3) /\ vget (qc (m_qp (ctl w1))) 0 = qz (-10).
Proof.
  pose (x := vlit [1]%Z). pose (ha := ex19r ++ [OSolve env_ok; OPs 0 (PXInit x)]). pose (hb := ex19r ++ [OPs 0 (PXInit x)]).
  assert (C : match run world0 ha, run world0 hb with
    | Some w, Some v => match solve env_ok w, solve env_ok v with
        | Some (true, w1), Some (true, v1) =>
            match spC (ctl w), spC (ctl v), spCost (ctl w), spCost (ctl v) with [], [], [0], [0] => true | _, _, _, _ => false end &&
            match m_ps (ctl w), m_ps (ctl v) with Some 0, Some 0 => true | _, _ => false end &&
            qeqb (vget (qc (m_qp (ctl v1))) 0) (qz (-3)) && qeqb (vget (qc (m_qp (ctl w1))) 0) (qz (-10))
        | _, _ => false end
    | _, _ => false end = true) by (vm_compute; reflexivity).
  destruct (run world0 ha) as [w|] eqn:R1; [|discriminate C]. destruct (run world0 hb) as [v|] eqn:R2; [|discriminate C].
  destruct (solve env_ok w) as [[[|] w1]|] eqn:S1; try discriminate C. destruct (solve env_ok v) as [[[|] v1]|] eqn:S2; try discriminate C.
  apply andb_true_iff in C as [C C4]. apply andb_true_iff in C as [C C3]. apply andb_true_iff in C as [C C2].
  destruct (spC (ctl w)) eqn:L1; [|discriminate C]. destruct (spC (ctl v)) eqn:L2; [|discriminate C].
  destruct (spCost (ctl w)) as [|[|?] [|? ?]] eqn:L3; try discriminate C. destruct (spCost (ctl v)) as [|[|?] [|? ?]] eqn:L4; try discriminate C.
  destruct (m_ps (ctl w)) as [[|?]|] eqn:P1; try discriminate C2. destruct (m_ps (ctl v)) as [[|?]|] eqn:P2; try discriminate C2.
  assert (FP : follows_protocol 1 1 1 world0 ha).
  { apply followsb_ok; [|vm_compute; reflexivity]; intros e H; cbn in H; repeat (destruct H as [H|H]; [try discriminate H; try (injection H as <-; apply env_with_sane; reflexivity)|]); contradiction. }
  assert (FP' : follows_protocol 1 1 1 world0 hb).
  { apply followsb_ok; [|vm_compute; reflexivity]; intros e H; cbn in H; repeat (destruct H as [H|H]; [try discriminate H; try (injection H as <-; apply env_with_sane; reflexivity)|]); contradiction. }
  assert (HO : honest world0 ha) by (apply honestb_ok; vm_compute; reflexivity).
  assert (HO' : honest world0 hb) by (apply honestb_ok; vm_compute; reflexivity).
  assert (SF : sizes_fit 1 1 1) by (repeat split; lia).
  assert (SS1 : solved 1 1 1 ha w 0 env_ok true w1) by (constructor; assumption).
  assert (SS2 : solved 1 1 1 hb v 0 env_ok true v1) by (constructor; assumption).
  destruct (sd_ps _ _ _ _ _ _ _ _ _ SS1) as [_ [_ [_ [X1 _]]]]. destruct (sd_ps _ _ _ _ _ _ _ _ _ SS2) as [_ [_ [_ [X2 _]]]].
  assert (Y1 : x0 (wps w1 0) = x).
  { rewrite X1. clear - R1. change ha with ((ex19r ++ [OSolve env_ok]) ++ [OPs 0 (PXInit x)]) in R1.
    rewrite run_app in R1. destruct (run world0 (ex19r ++ [OSolve env_ok])) as [u|]; [|discriminate R1]. cbn [obind run step ps_step] in R1. injection R1 as <-. reflexivity. }
  assert (Y2 : x0 (wps v1 0) = x).
  { rewrite X2. clear - R2. unfold hb in R2. rewrite run_app in R2. destruct (run world0 ex19r) as [u|]; [|discriminate R2]. cbn [obind run step ps_step] in R2. injection R2 as <-. reflexivity. }
  apply qeqb_ok in C3, C4.
  exists ex19r, w, x, w1, v, v1, env_ok. split; [exact FP|]. split; [exact HO|]. split; [reflexivity|]. split; [exact R1|]. split; [exact L3|]. split; [exact L1|]. split; [exact S1|].
  split; [exact R2|]. split; [exact L4|]. split; [exact L2|]. split; [exact S2|]. split; [exact P1|]. split; [exact P2|]. split; [exact Y1|]. split; [exact Y2|]. split; [exact C3|exact C4].
Qed.
Print Assumptions C45_refuted.
