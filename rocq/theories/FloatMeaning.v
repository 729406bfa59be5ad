(** FloatMeaning.v -- C71: the rows of a constraint, as its documentation describes them (SpecFloatRun.v). *)
From Coq Require Import Qcabs.
From Verif Require Import Base Eigen Spec Preview SpecApi PreviewProofs AutoSpan AutoSpanProofs Constraints ConstraintProofs
  SpecConstraints ConstraintMeaning Checkers Costs SpecCosts CostProofs Controller Registry SpecController Assembly Results
  SpecProtocol Protocol SpecEndToEnd SpanData EndToEndRows EndToEndMain Floats SpecFloats FloatProofs FloatPreview
  FloatConstraints FloatRows Properties_Floats FloatCosts FloatCostProofs FloatController SpecFloatRun FloatProtocol.
Open Scope nat_scope. Open Scope list_scope.

(** roundings of a row *)
Definition crnd (ps : psys) (c : constr) : nat :=
  match ck c with KCtrl | KCtrlB => 0 | _ => nrUStep ps * (xDim ps + 1) + fc_p ps c + 1 end.

Section Meaning.
Variables (ps D : psys).
Hypotheses (W : ps_wf ps) (SD : same_dims ps D).

Lemma trajB_each_row c x U (P : row_pred) : c_inited D c -> lines_fresh c -> ck c = KTrajB ->
  ((forall r, r < nrConstr c -> P (crnd ps c) (isIneq c) (c_lin ps c r x U) (c_rhs ps c r) (c_size ps c r x U)) <->
   each_row ps (c_given c) x U P).
Proof using W SD.
  intros [Sh [En _]] LF K. destruct (LF K) as [L0 [L1 L2]]. unfold c_shape, c_entry in Sh, En. rewrite K in Sh, En.
  destruct SD as [D1 [D2 [D3 [D4 [D5 D6]]]]].
  destruct Sh as [_ [Hr [_ [_ Hn]]]]. rewrite En in Hn. rewrite <- D1, <- D5, <- D4 in Hn. rewrite <- D1 in En. rewrite L1, L2 in Hn.
  pose proof (wf_fx ps W) as EX.
  unfold c_given, crnd. rewrite K, L0. cbn [each_row]. cbv zeta.
  set (lo := clower c) in *. set (up := cupper c) in *.
  set (ll := finite_lower_lines lo) in *. set (ul := finite_upper_lines up) in *.
  set (steps := if Nat.eqb (vsize lo) (xDim ps) then nrXStep ps else 1).
  assert (Hst : tb_steps ps c = steps).
  { unfold tb_steps, steps. rewrite En. destruct (Nat.eqb (vsize lo) (xDim ps)); reflexivity. }
  assert (Hnr : nrConstr c = length ll * steps + length ul * steps).
  { unfold steps. destruct (Nat.eqb (vsize lo) (xDim ps)); cbn [negb] in Hn; destruct Hn as [_ ->]; nia. }
  assert (Hc : vsize lo = xDim ps \/ vsize lo = fullXDim ps).
  { destruct (Nat.eqb (vsize lo) (xDim ps)); cbn [negb] in Hn; tauto. }
  set (kk := fun p i => if Nat.eqb (vsize lo) (xDim ps) then p else i / xDim ps).
  set (ii := fun i : nat => if Nat.eqb (vsize lo) (xDim ps) then i else i mod xDim ps).
  assert (Pl : forall p i, p < steps -> i < vsize lo ->
    kk p i < nrXStep ps /\ ii i < xDim ps /\ (i + xDim ps * p) / xDim ps = kk p i /\
    (i + xDim ps * p) mod xDim ps = ii i /\
    vpart (xDim ps) lo (kk p i) (ii i) = vget lo i /\ vpart (xDim ps) up (kk p i) (ii i) = vget up i).
  { intros p i Hp Hi. unfold kk, ii, vpart. unfold steps in Hp. rewrite <- Hr.
    destruct (Nat.eqb_spec (vsize lo) (xDim ps)) as [E|E].
    - rewrite E in Hi. replace (i + xDim ps * p) with (p * xDim ps + i) by lia.
      rewrite blk_quot, blk_rem by exact Hi. repeat split; auto.
    - assert (p = 0) by lia. subst p. rewrite Nat.mul_0_r, Nat.add_0_r.
      destruct Hc as [Hc|Hc]; [congruence|].
      assert (xDim ps <> 0) by (intro Z; rewrite Z in EX; lia).
      split; [apply Nat.div_lt_upper_bound; [assumption|lia]|].
      split; [apply Nat.mod_upper_bound; assumption|].
      rewrite (Nat.mul_comm (i / xDim ps)), <- Nat.div_mod by assumption. auto. }
  assert (Lo : forall p q, p < steps -> q < length ll -> let s := nth q ll 0 in
     c_lin ps c (p * length ll + q) x U = state_of ps x U (kk p s) (ii s) /\ c_rhs ps c (p * length ll + q) = vget lo s /\
     c_size ps c (p * length ll + q) x U = size_of ps x U (kk p s) (ii s)).
  { intros p q Hp Hq s.
    assert (B1 : s < vsize lo).
    { pose proof (nth_In ll 0 Hq) as HI. fold s in HI. unfold ll, finite_lower_lines in HI. apply filter_In in HI. destruct HI as [H1 _]. apply in_seq in H1. lia. }
    destruct (Pl p s Hp B1) as [P1 [P2 [P3 [P4 _]]]].
    unfold c_lin, c_rhs, c_size. rewrite K, L1, L2, Hst. cbv zeta. fold lo up ll ul.
    rewrite (proj2 (Nat.ltb_lt _ _)) by nia. unfold tb_src. rewrite blk_quot, blk_rem by exact Hq.
    fold s. unfold stacked_state, stacked_size. rewrite P3, P4. auto. }
  assert (Up : forall p q, p < steps -> q < length ul -> let s := nth q ul 0 in
     let r := length ll * steps + (p * length ul + q) in
     c_lin ps c r x U = state_of ps x U (kk p s) (ii s) /\ c_rhs ps c r = vget up s /\
     c_size ps c r x U = size_of ps x U (kk p s) (ii s)).
  { intros p q Hp Hq s r.
    assert (B1 : s < vsize lo).
    { rewrite Hr. pose proof (nth_In ul 0 Hq) as HI. fold s in HI. unfold ul, finite_upper_lines in HI. apply filter_In in HI. destruct HI as [H1 _]. apply in_seq in H1. fold up. lia. }
    destruct (Pl p s Hp B1) as [P1 [P2 [P3 [P4 _]]]].
    unfold c_lin, c_rhs, c_size, r. rewrite K, L1, L2, Hst. cbv zeta. fold lo up ll ul.
    rewrite (proj2 (Nat.ltb_ge _ _)) by nia. unfold tb_src.
    replace (length ll * steps + (p * length ul + q) - length ll * steps) with (p * length ul + q) by lia.
    rewrite blk_quot, blk_rem by exact Hq.
    fold s. unfold stacked_state, stacked_size. rewrite P3, P4. auto. }
  assert (Ll : forall q, q < length ll -> nth q ll 0 < vsize lo /\ vget lo (nth q ll 0) <> NInf).
  { intros q Hq. pose proof (nth_In ll 0 Hq) as HI. unfold ll, finite_lower_lines in HI. apply filter_In in HI.
    destruct HI as [H1 H2]. apply in_seq in H1. split; [unfold ll, finite_lower_lines; lia|].
    intro Z. unfold ll, finite_lower_lines in Z. rewrite Z in H2. discriminate H2. }
  assert (Lu : forall q, q < length ul -> nth q ul 0 < vsize lo /\ vget up (nth q ul 0) <> PInf).
  { intros q Hq. pose proof (nth_In ul 0 Hq) as HI. unfold ul, finite_upper_lines in HI. apply filter_In in HI.
    destruct HI as [H1 H2]. apply in_seq in H1. split; [rewrite Hr; unfold ul, finite_upper_lines; lia|].
    intro Z. unfold ul, finite_upper_lines in Z. rewrite Z in H2. discriminate H2. }
  replace (fc_p ps c) with 1 by (unfold fc_p; rewrite K; reflexivity).
  replace (nrUStep ps * (xDim ps + 1) + 2) with (nrUStep ps * (xDim ps + 1) + 1 + 1) by lia.
  split.
  - intros M k i Hk Hi.
    set (p := if Nat.eqb (vsize lo) (xDim ps) then k else 0).
    set (s := if Nat.eqb (vsize lo) (xDim ps) then i else k * xDim ps + i).
    assert (Hp : p < steps) by (unfold p, steps; destruct (Nat.eqb (vsize lo) (xDim ps)); lia).
    assert (Hs' : s < vsize lo).
    { unfold s. destruct (Nat.eqb_spec (vsize lo) (xDim ps)) as [E|E]; [lia|]. destruct Hc as [Hc|Hc]; [congruence|].
      rewrite Hc, EX. nia. }
    destruct (Pl p s Hp Hs') as [P1 [P2 [P3 [P4 [P5 P6]]]]].
    assert (Ek : kk p s = k) by (unfold kk, p, s; destruct (Nat.eqb (vsize lo) (xDim ps)); [reflexivity|apply blk_quot; exact Hi]).
    assert (Ei : ii s = i) by (unfold ii, s; destruct (Nat.eqb (vsize lo) (xDim ps)); [reflexivity|apply blk_rem; exact Hi]).
    rewrite Ek, Ei in *. rewrite P5, P6. split; intro Z.
    + assert (HI : In s ll).
      { unfold ll, finite_lower_lines. apply filter_In. split; [apply in_seq; lia|].
        destruct (vget lo s); [congruence|reflexivity|reflexivity]. }
      destruct (In_nth ll s 0 HI) as [q [Hq Eq]]. specialize (M (p * length ll + q) ltac:(rewrite Hnr; nia)).
      destruct (Lo p q Hp Hq) as [M1 [M2 M3]]. rewrite Eq in M1, M2, M3. rewrite M1, M2, M3, Ek, Ei in M. exact M.
    + assert (HI : In s ul).
      { unfold ul, finite_upper_lines. apply filter_In. split; [apply in_seq; rewrite <- Hr; lia|].
        destruct (vget up s); [reflexivity|reflexivity|congruence]. }
      destruct (In_nth ul s 0 HI) as [q [Hq Eq]]. specialize (M (length ll * steps + (p * length ul + q)) ltac:(rewrite Hnr; nia)).
      destruct (Up p q Hp Hq) as [M1 [M2 M3]]. rewrite Eq in M1, M2, M3. rewrite M1, M2, M3, Ek, Ei in M. exact M.
  - intros M r Hrr. rewrite Hnr in Hrr. destruct (Nat.lt_ge_cases r (length ll * steps)) as [L|L].
    + rewrite Nat.mul_comm in L. destruct (blk_div' _ _ _ L) as [p [q [Hp [Hq ->]]]].
      destruct (Ll q Hq) as [B1 B2]. destruct (Pl p _ Hp B1) as [P1 [P2 [P3 [P4 [P5 P6]]]]].
      destruct (Lo p q Hp Hq) as [M1 [M2 M3]]. rewrite M1, M2, M3. destruct (M _ _ P1 P2) as [Ml _].
      rewrite P5 in Ml. exact (Ml B2).
    + assert (L' : r - length ll * steps < steps * length ul) by lia.
      destruct (blk_div' _ _ _ L') as [p [q [Hp [Hq E]]]].
      replace r with (length ll * steps + (p * length ul + q)) by lia.
      destruct (Lu q Hq) as [B1 B2]. destruct (Pl p _ Hp B1) as [P1 [P2 [P3 [P4 [P5 P6]]]]].
      destruct (Up p q Hp Hq) as [M1 [M2 M3]]. rewrite M1, M2, M3. destruct (M _ _ P1 P2) as [_ Mu].
      rewrite P6 in Mu. exact (Mu B2).
Qed.

Ltac fwd M k R i Hi := let H := fresh "H" in assert (H := M (k * R + i) ltac:(nia)); rewrite blk_quot, blk_rem in H by exact Hi; exact H.
Lemma inited_each_row c x U (P : row_pred) : c_inited D c -> lines_fresh c -> ck c <> KCtrlB ->
  ((forall r, r < nrConstr c -> P (crnd ps c) (isIneq c) (c_lin ps c r x U) (c_rhs ps c r) (c_size ps c r x U)) <->
   each_row ps (c_given c) x U P).
Proof using W SD.
  intros I LF NB. destruct (ck c) eqn:K; try congruence; [| | |apply trajB_each_row; assumption].
  - destruct I as [Sh [En _]]. unfold c_shape, c_entry in Sh, En. rewrite K in Sh, En. destruct SD as [D1 [D2 [D3 [D4 [D5 D6]]]]].
    destruct Sh as [_ [H1 H2]]. rewrite <- D1 in En, H2. rewrite <- D4, <- D5 in H2.
    unfold c_given, crnd, c_lin, c_rhs, c_size, fc_p. rewrite K, En in *. cbn [each_row]. cbv zeta.
    destruct (Nat.eqb_spec (cols (cE c)) (xDim ps)) as [E|E]; cbn [negb] in *; destruct H2 as [H2 H3]; rewrite H3.
    + split.
      * intros M k i Hk Hi. fwd M k (rows (cE c)) i Hi.
      * intros M r Hr. rewrite Nat.mul_comm in Hr. destruct (blk_div' _ _ _ Hr) as [k [i [Hk [Hi ->]]]]. rewrite blk_quot, blk_rem by exact Hi. exact (M k i Hk Hi).
    + split; intros M i Hi; exact (M i Hi).
  - destruct I as [Sh [En _]]. unfold c_shape, c_entry in Sh, En. rewrite K in Sh, En. destruct SD as [D1 [D2 [D3 [D4 [D5 D6]]]]].
    destruct Sh as [Sz [_ H2]]. destruct Sz as [S1 [S2 [S3 _]]].
    unfold c_given, crnd, c_lin, c_rhs, c_size. rewrite K. destruct (fullSizeEntry c); cbn [each_row]; cbv zeta.
    + rewrite S2. specialize (En eq_refl). rewrite <- D2 in En. rewrite <- D6 in En |- *. destruct (Nat.eqb_spec (fullUDim ps) (uDim ps)) as [Z|_]; [congruence|].
      rewrite S1. tauto.
    + destruct H2 as [H2 [H3 [H4 _]]]. rewrite <- D2 in H3. rewrite <- D3 in H4. rewrite H3, Nat.eqb_refl, H4. split.
      * intros M k i Hk Hi. fwd M k (rows (cG c)) i Hi.
      * intros M r Hr. rewrite Nat.mul_comm in Hr. destruct (blk_div' _ _ _ Hr) as [k [i [Hk [Hi ->]]]]. rewrite blk_quot, blk_rem by exact Hi. exact (M k i Hk Hi).
  - destruct I as [Sh [En _]]. unfold c_shape, c_entry in Sh, En. rewrite K in Sh, En. destruct SD as [D1 [D2 [D3 [D4 [D5 D6]]]]].
    destruct Sh as [_ [H1 [H1' H2]]]. rewrite <- D1, <- D2 in En, H2. rewrite <- D3, <- D5, <- D6 in H2.
    unfold c_given, crnd, c_lin, c_rhs, c_size, fc_p. rewrite K, En in *. cbn [each_row]. cbv zeta.
    destruct (Nat.eqb (cols (cE c)) (xDim ps) && Nat.eqb (cols (cG c)) (uDim ps)); cbn [negb] in *.
    + destruct H2 as [_ [_ [H3 _]]]. rewrite H3. split.
      * intros M k i Hk Hi. fwd M k (rows (cE c)) i Hi.
      * intros M r Hr. rewrite Nat.mul_comm in Hr. destruct (blk_div' _ _ _ Hr) as [k [i [Hk [Hi ->]]]]. rewrite blk_quot, blk_rem by exact Hi. exact (M k i Hk Hi).
    + destruct H2 as [_ [_ H3]]. rewrite H3. split; intros M i Hi; exact (M i Hi).
Qed.
Lemma inited_each_bound c x U (P : row_pred) : c_inited D c -> ck c = KCtrlB ->
  ((forall i, i < fullUDim ps -> P 0 true (- U i)%Qc (ext_opp (cb_lo ps c i)) 0%Qc /\ P 0 true (U i) (cb_up ps c i) 0%Qc) <->
   each_row ps (c_given c) x U P).
Proof using W SD.
  intros [Sh [En _]] K. unfold c_shape, c_entry in Sh, En. rewrite K in Sh, En. pose proof (wf_fu ps W) as EU. destruct SD as [D1 [D2 [D3 [D4 [D5 D6]]]]].
  unfold c_given, cb_lo, cb_up. rewrite K. destruct Sh as [_ [H1 [H2 [H3 H4]]]]. destruct (fullSizeEntry c); cbn [each_row].
  - specialize (En eq_refl). rewrite H2, <- D2, <- D6 in *. destruct (Nat.eqb_spec (fullUDim ps) (uDim ps)) as [Z|_]; [congruence|]. tauto.
  - destruct H4 as [H4 H5]. rewrite H4, <- D2, Nat.eqb_refl. unfold control_at. split.
    + intros M k i Hk Hi. specialize (M (k * uDim ps + i) ltac:(rewrite EU; nia)). rewrite blk_rem in M by exact Hi. exact M.
    + intros M r Hr. rewrite EU in Hr. rewrite Nat.mul_comm in Hr.
      destruct (blk_div' _ _ _ Hr) as [k [i [Hk [Hi ->]]]]. rewrite blk_rem by exact Hi. exact (M k i Hk Hi).
Qed.
End Meaning.

(** [each_row] depends on the data only through their entries *)
Lemma apply_mabs_alike n M M' x i : meq M M' -> (i < rows M)%nat -> n <= cols M ->
  apply n (mabs (at_ M)) x i = apply n (mabs (at_ M')) x i.
Proof.
  intros [R [C E]] Hi Hn. unfold apply. apply sum_ext. intros j Hj. unfold mabs. rewrite E by lia. reflexivity.
Qed.
Ltac rep A := repeat match type of A with _ /\ _ => let B := fresh "A" in destruct A as [B A] end.
Lemma each_row_alike1 ps d e x U P : ps_wf ps -> con_alike d e -> valid_shape ps (new_con d) -> each_row ps d x U P -> each_row ps e x U P.
Proof.
  intro W. destruct d as [E f q|G f q|E G f q|lo up|lo up], e as [E' f' q'|G' f' q'|E' G' f' q'|lo' up'|lo' up']; cbn [con_alike new_con]; try tauto;
    unfold valid_shape; cbn; intros A V.
  - destruct A as [A1 [A2 <-]]. pose proof A1 as [R [C _]]. rewrite <- R, <- C. destruct V as [V1 V2].
    destruct (Nat.eqb_spec (cols E) (xDim ps)) as [Q|Q].
    + intros H k i Hk Hi. rewrite <- (apply_alike _ E E'), <- (apply_mabs_alike _ E E') by (assumption || lia). rewrite <- (proj2 A2 i) by lia. apply H; assumption.
    + intros H i Hi. rewrite <- (apply_alike _ E E'), <- (apply_mabs_alike _ E E') by (assumption || lia). rewrite <- (proj2 A2 i) by lia. apply H; assumption.
  - destruct A as [A1 [A2 <-]]. pose proof A1 as [R [C _]]. rewrite <- R, <- C. destruct V as [V1 V2].
    destruct (Nat.eqb_spec (cols G) (uDim ps)) as [Q|Q].
    + intros H k i Hk Hi. rewrite <- (apply_alike _ G G') by (assumption || lia). rewrite <- (proj2 A2 i) by lia. apply H; assumption.
    + intros H i Hi. rewrite <- (apply_alike _ G G') by (assumption || lia). rewrite <- (proj2 A2 i) by lia. apply H; assumption.
  - destruct A as [A1 [A2 [A3 <-]]]. pose proof A1 as [R [C _]]. pose proof A2 as [R' [C' _]]. rewrite <- R, <- C, <- C'.
    destruct V as [V1 [V2 V3]].
    destruct (Nat.eqb_spec (cols E) (xDim ps)) as [Q|Q], (Nat.eqb_spec (cols G) (uDim ps)) as [Q'|Q']; cbn [andb].
    1: { intros H k i Hk Hi. rewrite <- (apply_alike _ E E'), <- (apply_alike _ G G'), <- (apply_mabs_alike _ E E'), <- (apply_mabs_alike _ G G') by (assumption || lia). rewrite <- (proj2 A3 i) by lia. apply H; assumption. }
    all: intros H i Hi; rewrite <- (apply_alike _ E E'), <- (apply_alike _ G G'), <- (apply_mabs_alike _ E E'), <- (apply_mabs_alike _ G G') by (assumption || lia);
      rewrite <- (proj2 A3 i) by lia; apply H; assumption.
  - destruct A as [A1 A2]. destruct V as [V1 V2]. intros H k i Hk Hi.
    assert (B : vpart (xDim ps) lo' k i = vpart (xDim ps) lo k i /\ vpart (xDim ps) up' k i = vpart (xDim ps) up k i).
    { unfold vpart. rewrite <- (proj1 A1), <- (proj1 A2). destruct (Nat.eqb_spec (vsize lo) (xDim ps)) as [Q|Q].
      - rewrite <- V1, Q, Nat.eqb_refl. split; symmetry; [apply (proj2 A1)|apply (proj2 A2)]; lia.
      - rewrite <- V1. destruct (Nat.eqb_spec (vsize lo) (xDim ps)) as [Q'|_]; [congruence|].
        destruct V2 as [V2|V2]; [congruence|].
        pose proof (wf_fx ps W) as EX. assert (L : k * xDim ps + i < vsize lo) by (rewrite V2, EX; nia).
        split; symmetry; [apply (proj2 A1)|apply (proj2 A2)]; lia. }
    destruct B as [-> ->]. apply H; assumption.
  - destruct A as [A1 A2]. rewrite <- (proj1 A1). destruct V as [V1 V2].
    destruct (Nat.eqb_spec (vsize lo) (uDim ps)) as [Q|Q].
    + intros H k i Hk Hi. rewrite <- (proj2 A1 i), <- (proj2 A2 i) by lia. apply H; assumption.
    + intros H i Hi. rewrite <- (proj2 A1 i), <- (proj2 A2 i) by lia. apply H; assumption.
Qed.
Lemma each_row_alike ps d e x U P : ps_wf ps -> con_alike d e -> valid_shape ps (new_con d) ->
  (each_row ps d x U P <-> each_row ps e x U P).
Proof.
  intros W A V. split; [apply each_row_alike1; assumption|].
  apply each_row_alike1; [exact W|apply con_alike_sym; exact A|eapply valid_alike; eassumption].
Qed.
Lemma each_row_mono ps d x U (P Q : row_pred) : (forall k q l e s, P k q l e s -> Q k q l e s) -> each_row ps d x U P -> each_row ps d x U Q.
Proof.
  intro H. destruct d as [E f q|G f q|E G f q|lo up|lo up]; cbn [each_row]; cbv zeta.
  - destruct (Nat.eqb _ _); intros M; intros; apply H, M; assumption.
  - destruct (Nat.eqb _ _); intros M; intros; apply H, M; assumption.
  - destruct (Nat.eqb _ _ && Nat.eqb _ _); intros M; intros; apply H, M; assumption.
  - intros M k i Hk Hi. destruct (M k i Hk Hi) as [M1 M2]. split; intro Z; apply H; auto.
  - destruct (Nat.eqb _ _); [intros M k i Hk Hi; destruct (M k i Hk Hi)|intros M i Hi; destruct (M i Hi)]; split; apply H; assumption.
Qed.

(** ** One update *)
Definition f_rows_near (u : Qc) (ps : psys) (c c' : constr) : Prop :=
  (ck c <> KCtrlB -> forall r, r < nrConstr c -> forall U,
     row_error u (crnd ps c) (apply (fullUDim ps) (at_ (cA c')) U r) (vget (cb c') r)
       (c_lin ps c r (vget (x0 ps)) U) (c_rhs ps c r) (c_size ps c r (vget (x0 ps)) U)) /\
  (ck c = KCtrlB -> forall i, i < fullUDim ps -> vget (clb c') i = cb_lo ps c i /\ vget (cub c') i = cb_up ps c i).
Lemma crow_error u ps c' r lin rhs U size : crow_ok ps c' r lin rhs ->
  row_error u 0 (apply (fullUDim ps) (at_ (cA c')) U r) (vget (cb c') r) (lin (vget (x0 ps)) U) rhs size.
Proof.
  intros [k [Ez [Eb El]]]. unfold row_error. rewrite Eb, Ez, <- El. clear Eb Ez El.
  assert (G : growth u 0 = 0%Qc) by (unfold growth; cbn; ring).
  destruct rhs as [|f|]; cbn [ext_sub]; [reflexivity| |reflexivity].
  eexists. split; [reflexivity|]. rewrite G. unfold apply.
  match goal with |- (Qcabs ?x <= _)%Qc => replace x with 0%Qc by ring end. rewrite Qcabs_pos by apply Qcle_refl.
  rewrite Qcmult_0_l. apply Qcle_refl.
Qed.
Lemma c_lin_dims p q c r x U : same_dims p q -> ck c = KCtrl -> c_lin p c r x U = c_lin q c r x U.
Proof. intros [E1 [E2 [E3 [E4 [E5 E6]]]]] K. unfold c_lin. rewrite K, E2, E6. reflexivity. Qed.

Section Update.
Variables (u : Qc) (F : arith) (Ac : accurate u F) (D : psys).
Lemma f_con_near ps c c' : computed F ps -> same_dims ps D -> c_inited D c -> f_c_update F ps c = Some c' -> f_rows_near u ps c c'.
Proof using Ac.
  intros C SD [Sh _] E. apply same_dims_sym in SD.
  assert (Sh' : c_shape ps c) by (eapply c_shape_dims; eassumption).
  assert (KC : (ck c <> KCtrl /\ ck c <> KCtrlB) \/ ck c = KCtrl \/ ck c = KCtrlB).
  { clear. destruct (ck c); try (right; auto; fail); left; split; discriminate. }
  destruct KC as [[K1 K2]|[K|K]].
  - destruct (f_updates_ok u F ps [] ps c Ac K1 K2 Sh') as [c2 [E2 [_ [_ R]]]].
    { constructor; [split; [exact C|repeat split]|constructor]. }
    cbn [app f_c_updates] in E2. rewrite E in E2. cbn [obind] in E2. injection E2 as <-.
    split; [|congruence]. intros _ r Hr U. destruct (R r Hr) as [R1 _]. unfold crnd. destruct (ck c); try congruence; exact (R1 U).
  - destruct (computed_twin F ps C) as [q [R Dq]]. destruct (ctrl_update_ok q R c K) as [c2 [E2 [_ [_ M]]]]; [eapply c_shape_dims; [apply same_dims_sym; exact Dq|exact Sh']|].
    unfold f_c_update in E. rewrite K in E. rewrite (ctrl_update_dims ps q) in E by (apply same_dims_sym; exact Dq). rewrite E in E2. injection E2 as <-.
    split; [|congruence]. intros _ r Hr U. pose proof (crow_error u q c' r _ _ U (c_size ps c r (vget (x0 ps)) U) (M r Hr)) as G.
    assert (FU : fullUDim q = fullUDim ps) by apply Dq. rewrite FU, (c_lin_dims q ps) in G by assumption.
    unfold crnd. rewrite K. cbn [row_error] in *.
    assert (LU : forall y, c_lin ps c r y U = c_lin ps c r (vget (x0 ps)) U) by (intro y; unfold c_lin; rewrite K; reflexivity).
    rewrite LU in G. assert (RU : c_rhs q c r = c_rhs ps c r) by (unfold c_rhs; rewrite K; reflexivity). rewrite RU in G. exact G.
  - destruct (computed_twin F ps C) as [q [R Dq]]. destruct (ctrlB_update_ok q R c K) as [c2 [E2 [_ [_ M]]]]; [eapply c_shape_dims; [apply same_dims_sym; exact Dq|exact Sh']|].
    unfold f_c_update in E. rewrite K in E. rewrite (ctrlB_update_dims ps q) in E by (apply same_dims_sym; exact Dq). rewrite E in E2. injection E2 as <-.
    split; [congruence|]. intros _ i Hi. assert (FU : fullUDim q = fullUDim ps) by apply Dq. rewrite <- FU in Hi.
    assert (EU : uDim q = uDim ps) by apply Dq. specialize (M i Hi). unfold cb_lo, cb_up in *. rewrite EU in M. exact M.
Qed.
Lemma f_rows_near_obj ps c c1 c' : same_obj c c1 -> f_rows_near u ps c1 c' -> f_rows_near u ps c c'.
Proof using.
  intros SO [M1 M2]. pose proof SO as [SDt Q]. pose proof SDt as [D1 [D2 [D3 [D4 _]]]]. split.
  - intros K r Hr U. rewrite <- D1 in K. rewrite <- D3 in Hr. specialize (M1 K r Hr U).
    rewrite (same_obj_lin ps c c1 r _ U SO), (same_obj_rhs ps c c1 r SO), (same_data_size ps c c1 r _ U SDt) in M1.
    unfold crnd in *. rewrite (same_data_p ps c c1 SDt), D1 in M1. exact M1.
  - intros K i Hi. rewrite <- D1 in K. destruct (M2 K i Hi) as [-> ->].
    unfold cb_lo, cb_up. rewrite D4. destruct SDt as [_ [_ [_ [_ [_ [_ [_ [_ [D9 [D10 _]]]]]]]]]]. rewrite D9, D10.
    destruct (fullSizeEntry c) eqn:Fu; [|auto]. rewrite D1 in K. rewrite (Q eq_refl (or_intror K)). auto.
Qed.
End Update.
Lemma f_update_cons_near u F (Ac : accurate u F) n m N ps : computed F ps -> same_dims ps (dps n m N) -> forall l wc wc', f_update_cons F ps l wc = Some wc' ->
  (forall i, In i l -> c_inited (dps n m N) (wc i)) -> forall i, In i l -> f_rows_near u ps (wc i) (wc' i).
Proof.
  intros C SD. unfold f_update_cons.
  assert (G : forall l wc wc', for_list l (fun i wc => c <- f_c_update F ps (wc i) ;; Some (upd wc i c)) wc = Some wc' ->
    (forall i, In i l -> c_inited (dps n m N) (wc i)) -> forall i c0, same_obj c0 (wc i) -> (f_rows_near u ps c0 (wc i) \/ In i l) -> f_rows_near u ps c0 (wc' i)).
  { induction l as [|x t IH]; intros wc wc' E H i c0 S Hi; cbn [for_list] in E.
    - injection E as <-. destruct Hi as [Hi|[]]. exact Hi.
    - destruct (f_con_ok u F Ac n m N ps (wc x) C SD (H x (or_introl eq_refl))) as [c [Ec [Hc So]]].
      pose proof (f_con_near u F Ac (dps n m N) ps (wc x) c C SD (H x (or_introl eq_refl)) Ec) as M.
      rewrite Ec in E. cbn [obind] in E. apply (IH _ _ E).
      + intros k Hk. unfold upd. destruct (Nat.eqb_spec k x) as [->|]; [exact Hc|apply H; right; exact Hk].
      + unfold upd. destruct (Nat.eqb_spec i x) as [->|]; [|exact S]. eapply same_obj_trans; [exact S|exact So].
      + unfold upd. destruct (Nat.eqb_spec i x) as [->|Nx].
        * left. eapply (f_rows_near_obj u); [exact S|exact M].
        * destruct Hi as [Hi|[Hi|Hi]]; [auto|congruence|auto]. }
  intros l wc wc' E H i Hi. eapply G; [exact E|exact H|apply same_obj_refl|right; exact Hi].
Qed.
