(** Properties_Loop.v -- C64: the receding horizon loop. *)
From Verif Require Import Base Eigen Spec Preview SpecApi PreviewProofs AutoSpan AutoSpanProofs Constraints ConstraintProofs
  SpecConstraints ConstraintMeaning Checkers Costs SpecCosts CostProofs CostMeaning Properties_Costs Controller Registry SpecController Assembly
  Results Properties_Assembly Properties_Results SpecProtocol Protocol Properties_Protocol SpecEndToEnd SpanData Properties_Registry
  EndToEnd EndToEndQP EndToEndRows EndToEndMain Convex ExactSolver Properties_EndToEnd Determined Properties_Problem StateExt
  Solvers SpecSolvers SolverProofs Existence Properties_Solvers SpecMeaning Meaning Properties_Meaning SpecTail Tail SpecLedger Ledger Properties_Ledger SpecLoop Loop.

(** what a controller with constraints the user holds is, before the loop *)
Record loop_ready (n m N : nat) (h : list op) (w : world) (p : nat) : Prop := {
  lr_sizes : sizes_fit n m N;
  lr_callable : callable world0 h;
  lr_honest : honest world0 h;
  lr_reached : reached h w;
  lr_ps : m_ps (ctl w) = Some p;
  lr_lmpc : m_is (ctl w) = None;
  lr_owned : forall i, In i (spC (ctl w)) -> 0 < hcon w i;
  lr_even : forall i, In i (spC (ctl w)) -> even_bounds h i;
  lr_bounds : spB (ctl w) <> [] \/ stale world0 false h = false
}.
Section Turn.
Variables (n m N : nat) (h0 : list op) (w0 : world) (p : nat).
Hypothesis LR : loop_ready n m N h0 w0 p.
Lemma lr_inv g w T : closed_loop p w0 g w T -> follows_protocol n m N world0 (h0 ++ g) -> loop_inv h0 w0 p g w.
Proof using LR. destruct LR. intros CL FP. eapply loop_inv_holds; eassumption. Qed.

(** one turn *)
Lemma turn_facts g w T e w1 : closed_loop p w0 g w T -> follows_protocol n m N world0 (h0 ++ g) -> exact_solver e -> solve e w = Some (true, w1) ->
  let ps := wps w1 p in let x := vget (x0 (wps w p)) in let U := vget (m_ctrl (ctl w1)) in
  ready ps /\ xDim ps = n /\ uDim ps = m /\ nrUStep ps = N /\
  psA ps = psA (wps w0 p) /\ psB ps = psB (wps w0 p) /\ psd ps = psd (wps w0 p) /\ same_dims ps (wps w0 p) /\
  is_trajectory ps (x0 (wps w p)) (m_ctrl (ctl w1)) (m_traj (ctl w1)) /\
  (forall i d, In i (spC (ctl w0)) -> con_data_of h0 i = Some d -> imposes ps d x U) /\
  (spB (ctl w0) = [] -> representable (fullUDim ps) U).
Proof using LR.
  intros CL FP EX So. cbv zeta. destruct (lr_inv g w T CL FP) as [RE CA HO Ep NI EC EB EH [ED EN] ST [EA [EBB [Edd SD]]] NW].
  assert (S : solved n m N (h0 ++ g) w p e true w1) by (constructor; [apply LR|assumption..]).
  destruct (sd_ps _ _ _ _ _ _ _ _ _ S) as [R [D1 [D2 [X0 [EA1 [EB1 [Ed1 _]]]]]]].
  destruct (C63_end_to_end n m N (h0 ++ g) w p e w1 (lr_sizes _ _ _ _ _ _ LR) FP CA HO RE Ep NI) as [_ [_ [_ [_ [_ [Tr [[A1 A2] _]]]]]]];
    [intros i Hi; unfold even_bounds; rewrite EN; rewrite EC in Hi; apply (lr_even _ _ _ _ _ _ LR i Hi)|apply ST; apply LR|exact EX|exact So|].
  destruct D1 as [B1 [B2 [B3 _]]]. split; [exact R|]. do 3 (split; [assumption|]). split; [congruence|]. split; [congruence|]. split; [congruence|].
  split; [eapply same_dims_trans; eassumption|]. split; [rewrite <- X0; exact Tr|]. split.
  - intros i d Hi Hd. rewrite <- X0. apply (A1 i d); [rewrite EC; exact Hi|rewrite ED; exact Hd].
  - rewrite <- EB. exact A2.
Qed.
End Turn.

Lemma state_one ps x U i : state_of ps x U 1 i = next_state ps x U i.
Proof. unfold state_of, next_state, apply. cbn [state_at]. f_equal. Qed.
Lemma next_state_same ps ps' x U i : psA ps = psA ps' -> psB ps = psB ps' -> psd ps = psd ps' -> same_dims ps ps' -> next_state ps x U i = next_state ps' x U i.
Proof. intros A B D [X [Y _]]. unfold next_state. rewrite A, B, D, X, Y. reflexivity. Qed.
Lemma next_after (ps : psys) (x U X y : vec Qc) : 0 < nrUStep ps -> is_trajectory ps x U X -> vsize y = xDim ps -> is_part (xDim ps) X y ->
  forall i, i < xDim ps -> vget y i = next_state ps (vget x) (vget U) i.
Proof.
  intros Hn [_ [_ Tr]] Sy [_ PV] i Hi. rewrite PV by lia. rewrite <- state_one. specialize (Tr 1 i ltac:(lia) Hi).
  replace (1 * xDim ps + i) with (xDim ps + i) in Tr by lia. exact Tr.
Qed.

(** ** In the loop, the states visited are those of the system under the controls applied, and every constraint given for
    one step holds at each of them *)
Theorem C64_closed_loop : forall n m N h w p g w' T,
  loop_ready n m N h w p -> closed_loop p w g w' T -> follows_protocol n m N world0 (h ++ g) ->
  let states := map fst T ++ [x0 (wps w' p)] in
  nth_error states 0 = Some (x0 (wps w p)) /\
  (forall j x U x', nth_error T j = Some (x, U) -> nth_error states (S j) = Some x' ->
     forall i, i < n -> vget x' i = next_state (wps w p) (vget x) (vget U) i) /\
  (forall j x U, nth_error T j = Some (x, U) ->
     forall i d, In i (spC (ctl w)) -> con_data_of h i = Some d -> one_step n m d -> holds_at n m d (vget x) (vget U)).
Proof.
  intros n m N h w p g w' T LR CL. cbv zeta. induction CL as [|g w1 T e w2 x w3 CL IH EX So Sx Px St]; intro FP.
  - split; [reflexivity|]. split; intros j; destruct j; discriminate.
  - assert (FP1 : follows_protocol n m N world0 (h ++ g)) by (rewrite app_assoc in FP; eapply follows_prefix; exact FP).
    destruct (IH FP1) as [I1 [I2 I3]].
    destruct (turn_facts n m N h w p LR g w1 T e w2 CL FP1 EX So) as [R [Xn [Um [Nn [EA [EB [Ed [SD [Tr [Im Rp]]]]]]]]]]. cbv zeta in Im, Rp.
    pose proof (lr_inv n m N h w p LR g w1 T CL FP1) as LI.
    assert (LI2 : x0 (wps w3 p) = x).
    { destruct LR. eapply (loop_inv_turn n m N h w p); eassumption. }
    assert (XD : xDim (wps w1 p) = n).
    { destruct (li_sys _ _ _ _ _ LI) as [_ [_ [_ D]]]. rewrite <- Xn. transitivity (xDim (wps w p)); [apply D|symmetry; apply SD]. }
    assert (N1 : 1 <= N) by apply (lr_sizes _ _ _ _ _ _ LR).
    assert (LT : length (map fst T) = length T) by apply map_length.
    rewrite map_app. cbn [map fst]. rewrite LI2. split; [|split].
    + destruct T as [|[a b] T']; [exact I1|exact I1].
    + intros j y U y' Hj Hy i Hi. destruct (Nat.lt_trichotomy j (length T)) as [L|[->|L]].
      * rewrite nth_error_app1 in Hj by exact L. apply (I2 j y U y' Hj); [|exact Hi].
        rewrite <- Hy. destruct (Nat.eq_dec (S j) (length T)) as [E|E].
        -- rewrite <- app_assoc. rewrite !nth_error_app2 by lia. rewrite LT, E, Nat.sub_diag. reflexivity.
        -- rewrite <- app_assoc. rewrite !nth_error_app1 by lia. reflexivity.
      * rewrite nth_error_app2, Nat.sub_diag in Hj by lia. injection Hj as <- <-.
        rewrite <- app_assoc, nth_error_app2, LT in Hy by lia. replace (S (length T) - length T) with 1 in Hy by lia. injection Hy as <-.
        rewrite <- (next_state_same (wps w2 p)) by assumption.
        apply (next_after (wps w2 p) _ _ (m_traj (ctl w2))); [lia|exact Tr|congruence|congruence|lia].
      * exfalso. assert (Q : nth_error (T ++ [(x0 (wps w1 p), m_ctrl (ctl w2))]) j <> None) by congruence.
        apply nth_error_Some in Q. rewrite app_length in Q. cbn in Q. lia.
    + intros j y U Hj i d Hi Ed0 OS. destruct (Nat.lt_trichotomy j (length T)) as [L|[->|L]].
      * rewrite nth_error_app1 in Hj by exact L. exact (I3 j y U Hj i d Hi Ed0 OS).
      * rewrite nth_error_app2, Nat.sub_diag in Hj by lia. injection Hj as <- <-.
        rewrite <- Xn, <- Um in OS |- *. apply one_stepwise in OS. specialize (Im i d Hi Ed0). rewrite (imposes_steps _ d _ _ OS) in Im.
        specialize (Im 0). assert (C0 : 0 < con_steps (wps w2 p) d) by (destruct d; cbn [con_steps]; rewrite ?(rd_nx _ R); lia).
        apply Im in C0. apply at_step_holds in C0. exact C0.
      * exfalso. assert (Q : nth_error (T ++ [(x0 (wps w1 p), m_ctrl (ctl w2))]) j <> None) by congruence.
        apply nth_error_Some in Q. rewrite app_length in Q. cbn in Q. lia.
Qed.
Print Assumptions C64_closed_loop.

Lemma imposes_same ps ps' d x U : psA ps = psA ps' -> psB ps = psB ps' -> psd ps = psd ps' -> same_dims ps ps' -> imposes ps d x U -> imposes ps' d x U.
Proof.
  intros A B D [E1 [E2 [E3 [E4 [E5 E6]]]]].
  assert (ST : forall k, state_of ps x U k = state_of ps' x U k) by (intro k; unfold state_of; rewrite A, B, D, E1, E2; reflexivity).
  assert (SK : stacked_state ps x U = stacked_state ps' x U) by (unfold stacked_state, state_of; rewrite ?A, ?B, ?D, ?E1, ?E2; reflexivity).
  destruct d; cbn [imposes means]; unfold traj_means, ctrl_means, mixed_means, traj_below_both, ctrl_between; rewrite ?SK, ?E1, ?E2, ?E3, ?E4, ?E5, ?E6.
  all: try (intro H; exact H).
  all: match goal with |- (if ?c then _ else _) -> _ => destruct c end; intros H; intros; rewrite <- ?ST; auto.
Qed.

(** ** With a terminal constraint, the loop does not stop *)
Theorem C64_recursive_feasibility : forall n m N h w p g w' T xe ue e b w'',
  loop_ready n m N h w p -> nonneg_weights h -> closed_loop p w g w' T -> follows_protocol n m N world0 (h ++ g) ->
  (* xe, ue is an equilibrium that satisfies every registered constraint; one of them asks that the plan end at xe *)
  equilibrium (wps w p) xe ue -> (spB (ctl w) = [] -> representable m ue) ->
  (forall i d, In i (spC (ctl w)) -> con_data_of h i = Some d -> suits n m N xe ue d) ->
  (exists i d, In i (spC (ctl w)) /\ con_data_of h i = Some d /\ ends_at n N xe d) ->
  (* the loop made at least one turn: its next solve succeeds *)
  T <> [] -> exact_solver e -> solve e w' = Some (b, w'') -> complete_for e (m_qp (ctl w'')) -> b = true.
Proof.
  intros n m N h w p g w' T xe ue e b w'' LR NW CL FP EQ RU SU [i0 [d0 [Hi0 [Hd0 [FO PN]]]]] NT EX So CO.
  pose proof (lr_inv n m N h w p LR g w' T CL FP) as LI.
  assert (SF : sizes_fit n m N) by apply LR. assert (N1 : 1 <= N) by apply SF.
  (* the shifted plan *)
  assert (FE : exists V, (forall i d, In i (spC (ctl w)) -> con_data_of h i = Some d -> imposes (wps w p) d (vget (x0 (wps w' p))) V) /\
                         (spB (ctl w) = [] -> representable (m * N) V)).
  { destruct CL as [|g w1 T e1 w2 x w3 CL EX1 So1 Sx Px St]; [congruence|]. clear NT.
    assert (FP1 : follows_protocol n m N world0 (h ++ g)) by (rewrite app_assoc in FP; eapply follows_prefix; exact FP).
    destruct (turn_facts n m N h w p LR g w1 T e1 w2 CL FP1 EX1 So1) as [R [Xn [Um [Nn [EA [EB [Ed [SD [Tr [Im Rp]]]]]]]]]]. cbv zeta in Im, Rp.
    pose proof (lr_inv n m N h w p LR g w1 T CL FP1) as LI1.
    assert (XX : x0 (wps w3 p) = x) by (destruct LR; eapply (loop_inv_turn n m N h w p); eassumption).
    assert (XD : xDim (wps w1 p) = n).
    { destruct (li_sys _ _ _ _ _ LI1) as [_ [_ [_ D]]]. rewrite <- Xn. transitivity (xDim (wps w p)); [apply D|symmetry; apply SD]. }
    set (ps := wps w2 p) in *. set (U := vget (m_ctrl (ctl w2))) in *. set (xa := vget (x0 (wps w1 p))) in *.
    assert (EQ' : equilibrium ps xe ue) by (intros i Hi; rewrite (next_state_same ps (wps w p)) by assumption; apply EQ; rewrite <- (proj1 SD); exact Hi).
    assert (TE : forall i, i < xDim ps -> state_of ps xa U (nrUStep ps) i = xe i).
    { specialize (Im i0 d0 Hi0 Hd0). destruct d0 as [E f q| | | |]; cbn [final_only] in FO; try contradiction.
      rewrite <- Xn, <- Nn in FO, PN. apply (final_means ps R ltac:(lia) E f q xa U FO) in Im. intros i Hi. apply (PN _ Im). lia. }
    assert (X1 : forall i, i < xDim ps -> state_of ps xa U 1 i = vget x i).
    { intros i Hi. rewrite state_one. symmetry. apply (next_after ps (x0 (wps w1 p)) (m_ctrl (ctl w2)) (m_traj (ctl w2))); [lia|exact Tr|congruence|congruence|exact Hi]. }
    assert (FU : fullUDim ps = m * N) by (rewrite (rd_fu _ R), Um, Nn; reflexivity).
    exists (shifted m N U ue). rewrite XX. split.
    - intros i d Hi Hd. apply (imposes_same ps (wps w p)); try assumption.
      apply (imposes_ext ps (state_of ps xa U 1) (vget x) (shifted m N U ue) (shifted m N U ue) d R X1 (fun _ _ => eq_refl)).
      rewrite <- Um, <- Nn at 1. apply (shift_imposes ps xa U xe ue R ltac:(lia) EQ' TE d); [|apply (Im i d Hi Hd)].
      rewrite Xn, Um, Nn. apply (SU i d Hi Hd).
    - intros HB j Hj. specialize (Rp HB). specialize (RU HB). unfold shifted. rewrite FU in Rp. destruct (Nat.ltb_spec j (m * (N - 1))) as [L|L].
      + apply Rp. nia.
      + apply RU. nia. }
  destruct FE as [V [FV RV]].
  destruct LI as [RE CA HO Ep NI EC EB EH [ED EN] ST [EA [EBB [Edd SD]]] NWg].
  assert (S : solved n m N (h ++ g) w' p e b w'') by (constructor; assumption).
  destruct (sd_ps _ _ _ _ _ _ _ _ _ S) as [R [D1 [D2 [X0 [EA1 [EB1 [Ed1 _]]]]]]].
  assert (PD := C27_cost_matrix n m N (h ++ g) w' p e b w'' SF FP (NWg NW) RE Ep NI So). cbv zeta in PD. destruct PD as [_ [_ [_ [_ [_ PD]]]]].
  apply (C52_success_iff_feasible n m N (h ++ g) w' p e b w'' SF FP HO RE Ep So PD EX CO).
  exists V. apply (sv_feasible n m N SF (h ++ g) w' p e b w'' FP RE HO Ep NI So V CA (ST (lr_bounds _ _ _ _ _ _ LR))).
  - intros i Hi. unfold even_bounds. rewrite EN. rewrite EC in Hi. apply (lr_even _ _ _ _ _ _ LR i Hi).
  - split.
    + intros i d Hi Hd. rewrite EC in Hi. rewrite ED in Hd. rewrite X0. apply (imposes_same (wps w p)); [congruence..| |apply (FV i d Hi Hd)].
      apply same_dims_sym. eapply same_dims_trans; eassumption.
    + intro HB. rewrite EB in HB. assert (FU : fullUDim (wps w'' p) = m * N) by apply D1. rewrite FU. apply RV. exact HB.
Qed.
Print Assumptions C64_recursive_feasibility.

(** ** Example: x+ = x + u, |u| <= 1, two steps, the plan must end at 0; from 2 the loop goes to 1 and its second solve succeeds *)
Definition ex64 : list op :=
  [OPs 0 (PSystem (mlit [[1]]%Z) (mlit [[1]]%Z) (vlit [0]%Z) (vlit [2]%Z) 2); OConstruct j0 (CLMPCps 0) qempty;
   ONewCon (DTraj (mlit [[0; 0; 1]]%Z) (elit [fin 0]) false); ONewCon (DCtrlB (elit [fin (-1)]) (elit [fin 1])); ONewCost (DCtrlC (mlit [[1]]%Z) (vlit [0]%Z));
   OAddCost j0 0; OAddCon j0 0; OAddCon j0 1].
Definition cert64a : cert := Cert [qz (-1); qz (-1)] [(qz 1 + q1em6)%Qc] [] [] [((qz 1 + q1em6)%Qc, [qz 1]); ((qz 1 + q1em6)%Qc, [qz 0; qz 1])].
Definition cert64b : cert := Cert [(- half)%Qc; (- half)%Qc] [((qz 1 + q1em6) * half)%Qc] [] [] [((qz 1 + q1em6)%Qc, [qz 1]); ((qz 1 + q1em6)%Qc, [qz 0; qz 1])].
Definition turn64 : list op := [OSolve (env_certs [cert64a]); OPs 0 (PXInit (vlit [1]%Z))].
Lemma one_row q : q_eq_ext (Q2Qc 0%Q + qz 1 * q)%Qc (fin 0) -> q = qz 0.
Proof. intro H. assert (E : qz 0 = (Q2Qc 0%Q + qz 1 * q)%Qc) by exact (f_equal (fun e => match e with Fin a => a | _ => qz 0 end) H). rewrite E. change (qz 1) with 1%Qc. change (Q2Qc 0%Q) with 0%Qc. ring. Qed.
Example C64_example : exists w w' T w'',
  loop_ready 1 1 2 ex64 w 0 /\ nonneg_weights ex64 /\ closed_loop 0 w turn64 w' T /\ follows_protocol 1 1 2 world0 (ex64 ++ turn64) /\
  equilibrium (wps w 0) (fun _ => qz 0) (fun _ => qz 0) /\ spB (ctl w) <> [] /\
  (forall i d, In i (spC (ctl w)) -> con_data_of ex64 i = Some d -> suits 1 1 2 (fun _ => qz 0) (fun _ => qz 0) d) /\
  (exists i d, In i (spC (ctl w)) /\ con_data_of ex64 i = Some d /\ ends_at 1 2 (fun _ => qz 0) d) /\
  length T = 1 /\ exact_solver (env_certs [cert64b]) /\ solve (env_certs [cert64b]) w' = Some (true, w'') /\ complete_for (env_certs [cert64b]) (m_qp (ctl w'')) /\
  vget (x0 (wps w' 0)) 0 = qz 1 /\ vget (m_ctrl (ctl w'')) 0 = (- half)%Qc.
Proof.
  assert (SF : sizes_fit 1 1 2) by (repeat split; lia).
  assert (FP : follows_protocol 1 1 2 world0 (ex64 ++ turn64)).
  { apply followsb_ok; [|vm_compute; reflexivity]. intros e H. cbn in H. repeat (destruct H as [H|H]; [try discriminate H|]); try contradiction; injection H as <-; apply env_certs_sane. }
  assert (CA : callable world0 ex64) by (apply callableb_ok; vm_compute; reflexivity).
  assert (HO : honest world0 ex64) by (apply honestb_ok; vm_compute; reflexivity).
  assert (ST : stale world0 false ex64 = false) by (vm_compute; reflexivity).
  assert (C : match run world0 ex64 with
    | Some w => (m_ps (ctl w) = Some 0 /\ m_is (ctl w) = None /\ spC (ctl w) = [0; 1] /\ spB (ctl w) = [1] /\ hcon w 0 = 1 /\ hcon w 1 = 1) /\
                xDim (wps w 0) = 1 /\ uDim (wps w 0) = 1
    | None => False end) by (vm_compute; repeat split).
  assert (D : match run world0 ex64 with
    | Some w => match solve (env_certs [cert64a]) w with
        | Some (b, w1) => b && Nat.eqb (vsize (m_traj (ctl w1))) 3 && qeqb (vget (m_traj (ctl w1)) 1) (qz 1) &&
            match step w1 (OPs 0 (PXInit (vlit [1]%Z))) with
            | Ok w2 => match solve (env_certs [cert64b]) w2 with
                | Some (b', w3) => b' && kkt_check (m_qp (ctl w3)) cert64b && qeqb (vget (x0 (wps w2 0)) 0) (qz 1) && qeqb (vget (m_ctrl (ctl w3)) 0) (- half)%Qc
                | None => false end
            | _ => false end
        | None => false end && qeqb (at_ (psA (wps w 0)) 0 0) (qz 1) && qeqb (at_ (psB (wps w 0)) 0 0) (qz 1) && qeqb (vget (psd (wps w 0)) 0) (qz 0)
    | None => false end = true) by (vm_compute; reflexivity).
  destruct (run world0 ex64) as [w|] eqn:R; [|contradiction]. destruct C as [[C1 [C2 [C3 [C4 [C5 C6]]]]] [C7 C8]].
  apply andb_prop in D as [D Dd]. apply andb_prop in D as [D DB]. apply andb_prop in D as [D DA].
  destruct (solve (env_certs [cert64a]) w) as [[b w1]|] eqn:S1; [|discriminate D]. apply andb_prop in D as [D D4]. apply andb_prop in D as [D D3]. apply andb_prop in D as [D1 D2].
  destruct b; [|discriminate D1]. clear D1. destruct (step w1 (OPs 0 (PXInit (vlit [1]%Z)))) as [w2| |] eqn:S2; try discriminate D4.
  destruct (solve (env_certs [cert64b]) w2) as [[b w3]|] eqn:S3; [|discriminate D4].
  apply andb_prop in D4 as [D4 E4]. apply andb_prop in D4 as [D4 E3]. apply andb_prop in D4 as [E1 E2]. destruct b; [|discriminate E1].
  apply Nat.eqb_eq in D2. apply qeqb_ok in D3, E3, E4, DA, DB, Dd.
  exists w, w2, [(x0 (wps w 0), m_ctrl (ctl w1))], w3.
  split. { constructor; try assumption.
    - intros i Hi. rewrite C3 in Hi. destruct Hi as [<-|[<-|[]]]; [rewrite C5|rewrite C6]; lia.
    - intros i Hi. rewrite C3 in Hi. destruct Hi as [<-|[<-|[]]]; intros lower upper H; cbn in H; discriminate H.
    - left. rewrite C4. discriminate. }
  split; [no_weights|]. split. { apply (loop_turn 0 w [] w [] (env_certs [cert64a]) w1 (vlit [1]%Z) w2); [constructor|apply env_certs_exact|exact S1|rewrite C7; reflexivity| |exact S2].
    rewrite C7. split; [rewrite D2; cbn; lia|]. intros i Hi. cbn in Hi. destruct i as [|i]; [symmetry; exact D3|lia]. }
  split; [exact FP|]. split. { intros i Hi. rewrite C7 in Hi. destruct i; [|lia]. unfold next_state, apply. rewrite C7, C8. cbn [sum]. rewrite DA, DB, Dd. apply Qc_is_canon. reflexivity. }
  split; [rewrite C4; discriminate|]. split. { intros i d Hi. rewrite C3 in Hi. destruct Hi as [<-|[<-|[]]]; intro H; cbn in H; injection H as <-.
    - right. split; [split; [reflexivity|]|]. 
      + intros i j Hi Hj. cbn in Hi, Hj. destruct i; [|lia]. destruct j as [|[|j]]; [reflexivity|reflexivity|lia].
      + intros i Hi. cbn in Hi. destruct i; [|lia]. vm_compute. f_equal; apply Qc_is_canon; reflexivity.
    - left. split; [reflexivity|]. intros i Hi. destruct i; [|lia]. vm_compute. split; discriminate. }
  split. { exists 0. eexists. split; [rewrite C3; left; reflexivity|]. split; [reflexivity|]. split; [split; [reflexivity|]|].
    - intros i j Hi Hj. cbn in Hi, Hj. destruct i; [|lia]. destruct j as [|[|j]]; [reflexivity|reflexivity|lia].
    - intros x H i Hi. destruct i; [|lia]. specialize (H 0 ltac:(cbn; lia)). exact (one_row _ H). }
  split; [reflexivity|]. split; [apply env_certs_exact|]. split; [exact S3|]. split; [apply kkt_complete; exact E2|]. split; [exact E3|exact E4].
Qed.
