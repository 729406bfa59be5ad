(** Properties_Diagnostics.v -- C65: what the automatic deletion announces; C66: what the solvers report. *)
From Coq Require Import String.
From Verif Require Import Base Eigen Spec Preview SpecApi AutoSpan Constraints Costs Controller Registry SpecController Properties_Registry Messages Solvers Checkers Diagnostics.
Open Scope list_scope.

(** the entries of [l] that are not in [l'] *)
Definition gone (l l' : list nat) : list nat := filter (fun i => negb (existsb (Nat.eqb i) l')) l.

Lemma check_log_filter (o : nat -> nat) lim (uc : list nat -> nat -> nat) name :
  (forall l i, uc l i = o i + cnt i l) ->
  forall l, check_log uc name lim [] l = map (fun i => warning (name i)) (filter (fun i => negb (lim <? o i + cnt i l)) l).
Proof.
  intros U l. set (P := fun i => lim <? o i + cnt i l).
  assert (G : forall todo seen, l = seen ++ todo -> check_log uc name lim (filter P seen) todo = map (fun i => warning (name i)) (filter (fun i => negb (P i)) todo)).
  { induction todo as [|i t IH]; intros seen E; cbn [check_log filter]; [reflexivity|].
    assert (E' : l = (seen ++ [i]) ++ t) by (rewrite <- app_assoc; exact E).
    rewrite U, cnt_app, cnt_filter.
    assert (Ci : cnt i l = cnt i seen + cnt i (i :: t)) by (rewrite E; apply cnt_app).
    destruct (P i) eqn:Pi; cbn [negb].
    - assert (Pi' : P i = true) by exact Pi. unfold P in Pi. apply Nat.ltb_lt in Pi. rewrite (proj2 (Nat.leb_gt _ _)) by lia.
      replace (filter P seen ++ [i]) with (filter P (seen ++ [i])); [apply IH; exact E'|]. rewrite filter_app. cbn [filter]. rewrite Pi'. reflexivity.
    - assert (Pi' : P i = false) by exact Pi. unfold P in Pi. apply Nat.ltb_ge in Pi. rewrite (proj2 (Nat.leb_le _ _)) by lia. cbn [map]. f_equal.
      replace (filter P seen) with (filter P (seen ++ [i])); [apply IH; exact E'|]. rewrite filter_app. cbn [filter]. rewrite Pi'. apply app_nil_r. }
  specialize (G l [] eq_refl). cbn [filter] in G. exact G.
Qed.
Lemma gone_filter (keep : nat -> bool) l : gone l (filter keep l) = filter (fun i => negb (keep i)) l.
Proof.
  unfold gone. apply filter_ext_in. intros i Hi. f_equal. destruct (keep i) eqn:K.
  - apply existsb_exists. exists i. split; [apply filter_In; auto|apply Nat.eqb_refl].
  - destruct (existsb (Nat.eqb i) (filter keep l)) eqn:X; [|reflexivity]. apply existsb_exists in X as [j [Hj E]]. apply Nat.eqb_eq in E. subst j.
    apply filter_In in Hj. destruct Hj as [_ Hj]. congruence.
Qed.

Lemma k_update_kind ps c c' : k_update ps c = Some c' -> kk c' = kk c.
Proof.
  unfold k_update, trajC_update, targetC_update, ctrlC_update, mixedC_update. intro H.
  destruct (kk c) eqn:K; unfold obind in H; break_match H; injection H as <-; exact K.
Qed.
Lemma update_costs_kind ps : forall l wk wk' i, update_costs ps l wk = Some wk' -> kk (wk' i) = kk (wk i).
Proof.
  unfold update_costs. induction l as [|x t IH]; intros wk wk' i H; cbn [for_list] in H; [injection H as <-; reflexivity|].
  destruct (k_update ps (wk x)) as [c|] eqn:E; [|discriminate H]. cbn [obind] in H. rewrite (IH _ _ _ H). unfold upd.
  destruct (Nat.eqb_spec i x) as [->|_]; [exact (k_update_kind _ _ _ E)|reflexivity].
Qed.
Lemma build_kind e w w' i : build e w = Some w' -> kk (wcost w' i) = kk (wcost w i).
Proof.
  unfold build. destruct (lmpc_updateSystem (s_junk e) w) as [w1|] eqn:E; [|discriminate]. cbn [obind].
  destruct (m_ps (ctl w1)) as [p|]; [|discriminate].
  destruct (match m_is (ctl w1) with None => _ | Some _ => _ end) as [q|]; [|discriminate]. cbn [obind].
  intro H. injection H as <-. cbn. unfold lmpc_updateSystem in E. destruct (m_ps (ctl w)) as [p'|]; [|discriminate E]. cbv zeta in E.
  destruct (ensureUpdated (wps w p')) as [ps|]; [|discriminate E]. cbn [obind] in E.
  destruct (updateNr _ _) as [m|]; [|discriminate E]. cbn [obind] in E.
  destruct (update_cons _ _ _) as [wc|]; [|discriminate E]. cbn [obind] in E.
  destruct (update_costs _ _ _) as [wk|] eqn:U; [|discriminate E]. cbn [obind] in E. injection E as <-. cbn. exact (update_costs_kind _ _ _ _ _ U).
Qed.

(** the line printed for a dropped object called [name] *)
Definition announcement (name : string) : string :=
  ("A '" ++ name ++ "' has been destroyed." ++ String (Ascii.ascii_of_nat 10) "It has been removed from the controller" ++ String (Ascii.ascii_of_nat 10) "")%string.
Lemma announcement_is name : warning name = announcement name.
Proof. reflexivity. Qed.

(** ** C65: in a debug build solve() prints one warning, with its name, for each entry it drops, constraints first, each list in
    order, and nothing else; in a release build it prints nothing *)
Theorem C65_announced : forall h w e b w', reached h w -> solve e w = Some (b, w') ->
  solve_warnings false e w = Some (
    map (fun i => announcement (c_name (ck (wcon w i)) (isIneq (wcon w i)))) (gone (spC (ctl w)) (spC (ctl w'))) ++
    map (fun i => announcement (k_name (kk (wcost w i)))) (gone (spCost (ctl w)) (spCost (ctl w')))) /\
  solve_warnings true e w = Some [].
Proof.
  intros h w e b w' RE H. pose proof (reached_inv h w RE) as R. destruct (solve_lists e w b w' R H) as [_ [_ [H1 [_ [_ [_ H5]]]]]].
  destruct (solve_parts _ _ _ _ H) as [w1 [r [Eb _]]]. unfold solve_warnings. rewrite Eb. cbn [obind]. split; [|reflexivity].
  destruct (build_kept _ _ _ Eb) as [K KK]. pose proof (kept_inv _ _ R K) as R1. destruct K as [A1 [A2 [A3 [A4 [A5 [A6 [A7 [A8 [A9 A10]]]]]]]]].
  f_equal. unfold deletion_warnings. cbv zeta. rewrite H1, H5, !gone_filter. f_equal.
  - rewrite (check_log_filter (fun i => hcon w1 i + cnt i (spEq (ctl w1)) + cnt i (spIneq (ctl w1)) + cnt i (spB (ctl w1)))) by (intros; unfold use_con; lia).
    assert (CT : forall i, cnt i (spEq (ctl w1)) + cnt i (spIneq (ctl w1)) + cnt i (spB (ctl w1)) = cnt i (spC (ctl w1))).
    { intro i. rewrite (ri_eq _ R1), (ri_ineq _ R1), (ri_b _ R1). unfold of_type. rewrite !cnt_filter. unfold has_type. destruct (constraintType (wcon w1 i)); lia. }
    assert (FE : filter (fun i => negb (2 <? hcon w1 i + cnt i (spEq (ctl w1)) + cnt i (spIneq (ctl w1)) + cnt i (spB (ctl w1)) + cnt i (spC (ctl w1)))) (spC (ctl w1))
               = filter (fun i => negb (survives (hcon w) (spC (ctl w)) i)) (spC (ctl w))).
    { rewrite A1. apply filter_ext_in. intros i Hi. f_equal. apply cnt_in in Hi. specialize (CT i). rewrite A1 in CT. rewrite A8. unfold survives.
      destruct (Nat.eqb_spec (hcon w i) 0) as [Z|Z]; cbn [negb orb].
      - destruct (Nat.ltb_spec 1 (cnt i (spC (ctl w)))) as [L|L]; [apply Nat.ltb_lt; lia|apply Nat.ltb_ge; lia].
      - apply Nat.ltb_lt. lia. }
    rewrite FE. apply map_ext. intro i. destruct (A10 i) as [E1 E2]. rewrite E1, E2. reflexivity.
  - rewrite (check_log_filter (hcost w1)) by (intros; lia). rewrite A5, A9.
    assert (FE : filter (fun i => negb (1 <? hcost w i + cnt i (spCost (ctl w)))) (spCost (ctl w)) = filter (fun i => negb (survives (hcost w) (spCost (ctl w)) i)) (spCost (ctl w))).
    { apply filter_ext_in. intros i Hi. f_equal. apply cnt_in in Hi. unfold survives. destruct (Nat.eqb_spec (hcost w i) 0) as [Z|Z]; cbn [negb orb].
      - destruct (Nat.ltb_spec 1 (cnt i (spCost (ctl w)))) as [L|L]; [apply Nat.ltb_lt; lia|apply Nat.ltb_ge; lia].
      - apply Nat.ltb_lt. lia. }
    rewrite FE. apply map_ext. intro i. rewrite (build_kind _ _ _ i Eb). reflexivity.
Qed.
Print Assumptions C65_announced.

(** one name per kind: reading the warnings tells how many objects of each kind of cost went *)
Theorem C65_kinds : forall a b, announcement (k_name a) = announcement (k_name b) -> a = b.
Proof. intros [] [] H; try discriminate H; reflexivity. Qed.
Print Assumptions C65_kinds.
(** silence means that nothing was dropped *)
Theorem C65_silence : forall h w e b w', reached h w -> solve e w = Some (b, w') -> solve_warnings false e w = Some [] ->
  spC (ctl w') = spC (ctl w) /\ spCost (ctl w') = spCost (ctl w).
Proof.
  intros h w e b w' RE H S. destruct (C65_announced h w e b w' RE H) as [A _]. rewrite A in S. injection S as S.
  apply app_eq_nil in S as [S1 S2]. apply map_eq_nil in S1, S2.
  destruct (solve_lists e w b w' (reached_inv h w RE) H) as [_ [_ [H1 [_ [_ [_ H5]]]]]]. rewrite H1 in S1 |- *. rewrite H5 in S2 |- *. rewrite gone_filter in S1, S2.
  assert (Z : forall (keep : nat -> bool) l, filter (fun i => negb (keep i)) l = [] -> filter keep l = l).
  { intros keep. induction l as [|x t IH]; [reflexivity|]. cbn [filter]. destruct (keep x); cbn [negb]; [intro X; f_equal; exact (IH X)|discriminate]. }
  split; apply Z; assumption.
Qed.
Print Assumptions C65_silence.

Definition ex65 : list op := h_start ++
  [ONewCon d_traj; ONewCon d_eq; ONewCost d_cost; ONewCost d_cost; OAddCon j0 0; OAddCon j0 1; OAddCost j0 0; OAddCost j0 1; OReleaseCon 0; OReleaseCost 0].
Example C65_example :
  match run world0 ex65 with
  | Some w => solve_warnings false env_ok w = Some [announcement "Trajectory inequality constraint"; announcement (k_name (kk (wcost w 0)))] /\
              solve_warnings true env_ok w = Some []
  | None => False end.
Proof. vm_compute. split; reflexivity. Qed.

(** ** C66: what the solvers report *)
Definition adapters_with_messages (k : adapter) : Prop := k = AQLD \/ k = AQuadProg.
(** inform() of QLD and QuadProg: the success message exactly for code 0, one text per documented code (QLD 0-5 and >= 100, QuadProg
    0-2), nothing from QuadProg for another code; the others pass on what the library says *)
Definition success_text (k : adapter) : string :=
  match k with AQLD => "The optimality conditions are satisfied." | _ => "No problems" end ++ String (Ascii.ascii_of_nat 10) "".
Definition documented (k : adapter) (c : Z) : Prop :=
  match k with AQLD => (0 <= c <= 5 \/ c > 100)%Z | _ => (0 <= c <= 2)%Z end.
Definition same_outcome (k : adapter) (c c' : Z) : Prop := c = c' \/ (k = AQLD /\ (c > 100)%Z /\ (c' > 100)%Z).

Lemma qld_big c : (c > 100)%Z -> qld_inform c = qld_inform 101.
Proof. intro H. destruct c as [|p|p]; try lia. do 7 (destruct p as [p|p|]; try lia; try reflexivity). Qed.
Lemma cases05 c : (0 <= c <= 5)%Z -> c = 0%Z \/ c = 1%Z \/ c = 2%Z \/ c = 3%Z \/ c = 4%Z \/ c = 5%Z.
Proof. lia. Qed.
Lemma cases02 c : (0 <= c <= 2)%Z -> c = 0%Z \/ c = 1%Z \/ c = 2%Z.
Proof. lia. Qed.

Theorem C66_inform_partial : forall k c c' n n' t t', adapters_with_messages k ->
  (SI_inform k (Report c n t) = success_text k <-> c = 0%Z) /\
  (documented k c -> documented k c' -> (SI_inform k (Report c n t) = SI_inform k (Report c' n' t') <-> same_outcome k c c')) /\
  (documented k c -> SI_inform k (Report c n t) <> EmptyString).
Proof.
  intros k c c' n n' t t' [->| ->]; cbn [SI_inform r_fail documented success_text].
  - split; [|split].
    + split; [|intros ->; reflexivity]. intro H. destruct c as [|p|p]; [reflexivity| |discriminate H].
      exfalso. destruct p as [p|p|]; [..|discriminate H]; destruct p as [p|p|]; try discriminate H; destruct p as [p|p|]; discriminate H.
    + intros D D'. split.
      * intro H. unfold same_outcome. destruct D as [D|D], D' as [D'|D'].
        -- left. destruct (cases05 _ D) as [->|[->|[->|[->|[->| ->]]]]], (cases05 _ D') as [->|[->|[->|[->|[->| ->]]]]]; reflexivity || discriminate H.
        -- exfalso. rewrite (qld_big _ D') in H. destruct (cases05 _ D) as [->|[->|[->|[->|[->| ->]]]]]; discriminate H.
        -- exfalso. rewrite (qld_big _ D) in H. destruct (cases05 _ D') as [->|[->|[->|[->|[->| ->]]]]]; discriminate H.
        -- right. auto.
      * intros [->|[_ [G G']]]; [reflexivity|]. rewrite (qld_big _ G), (qld_big _ G'). reflexivity.
    + intros [D|D]; [destruct (cases05 _ D) as [->|[->|[->|[->|[->| ->]]]]]; discriminate|rewrite (qld_big _ D); discriminate].
  - split; [|split].
    + split; [|intros ->; reflexivity]. intro H. destruct c as [|p|p]; [reflexivity| |discriminate H].
      exfalso. destruct p as [p|p|]; [discriminate H| |discriminate H]; destruct p as [p|p|]; discriminate H.
    + intros D D'. split.
      * intro H. left. destruct (cases02 _ D) as [->|[->| ->]], (cases02 _ D') as [->|[->| ->]]; reflexivity || discriminate H.
      * intros [->|[X _]]; [reflexivity|discriminate X].
    + intro D. destruct (cases02 _ D) as [->|[->| ->]]; discriminate.
Qed.
Print Assumptions C66_inform_partial.
(** the status and the library's own text come out as the library gave them *)
Theorem C66_passed_on : forall k r, SI_fail k r = r_fail r /\ (k = ALSSOL \/ k = AOSQP -> SI_inform k r = r_text r) /\ (k <> AQLD -> SI_iter k r = r_iter r) /\ SI_iter AQLD r = 0%Z.
Proof. intros [] r; (split; [reflexivity|]); (split; [intros [X|X]; try discriminate X; reflexivity|]); (split; [intro X; reflexivity || (exfalso; apply X; reflexivity)|reflexivity]). Qed.
Print Assumptions C66_passed_on.
(** QLD: the number of iterations is 0 whatever the library did *)
Theorem C66_iter_refuted : exists k r, SI_iter k r <> r_iter r.
Proof. exists AQLD, (Report 0 7 ""%string). discriminate. Qed.
Print Assumptions C66_iter_refuted.
(** QuadProg: a code that is none of its three prints nothing *)
Theorem C66_unknown_refuted : exists c n t, SI_inform AQuadProg (Report c n t) = EmptyString.
Proof. exists 3%Z, 0%Z, ""%string. reflexivity. Qed.
Print Assumptions C66_unknown_refuted.
(** level 0 makes the library silent, another level makes it talk, and the last call wins *)
Theorem C66_print_level : forall k pl v, k <> AQuadProg -> (quiet k (SI_printLevel k pl v) = true <-> pl = 0%Z).
Proof.
  intros [] pl v K; cbn [quiet SI_printLevel v_level v_flag]; try (exfalso; apply K; reflexivity); rewrite ?negb_involutive; apply Z.eqb_eq.
Qed.
Print Assumptions C66_print_level.
Example C66_example :
  documented AQLD 4 /\ documented AQLD 113 /\ documented AQuadProg 1 /\
  SI_inform AQuadProg (Report 1 12 "") = ("The minimization problem has no solution" ++ String (Ascii.ascii_of_nat 10) "")%string /\
  SI_inform AQLD (Report 113 12 "") = SI_inform AQLD (Report 107 3 "").
Proof. cbn. repeat split; try lia. Qed.
