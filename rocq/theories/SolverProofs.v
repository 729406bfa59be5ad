(** SolverProofs.v -- the adapters pose the problem they are given. *)
From Verif Require Import Base Eigen Spec Preview SpecApi AutoSpan Constraints Costs Controller SpecController SpecProtocol Protocol
  SpecEndToEnd Convex Solvers SpecSolvers.

Ltac split_and H := repeat (apply andb_prop in H; destruct H as [H ?]);
  repeat match goal with K : Nat.eqb _ _ = true |- _ => apply Nat.eqb_eq in K end.
Lemma full_dims_sized nv ne ni q : full_dims nv ne ni q = true <-> well_sized nv ne ni q.
Proof.
  unfold full_dims, well_sized. split.
  - intro H. split_and H. repeat split; assumption.
  - intros H. decompose [and] H. repeat (apply andb_true_intro; split); apply Nat.eqb_eq; assumption.
Qed.
Lemma ineq_dims_sized nv ne ni p : ineq_dims nv ne ni p = true <-> ineq_sized nv ne ni p.
Proof.
  unfold ineq_dims, ineq_sized. split.
  - intro H. split_and H. repeat split; assumption.
  - intros H. decompose [and] H. repeat (apply andb_true_intro; split); apply Nat.eqb_eq; assumption.
Qed.
Lemma box_dims_sized nv nr p : box_dims nv nr p = true <-> box_sized nv nr p.
Proof.
  unfold box_dims, box_sized. split.
  - intro H. split_and H. repeat split; assumption.
  - intros H. decompose [and] H. repeat (apply andb_true_intro; split); apply Nat.eqb_eq; assumption.
Qed.

Lemma apply_row_delta n (A : nat -> nat -> Qc) x i k (v : Qc) : k < n ->
  (forall j, j < n -> A i j = if Nat.eqb k j then v else 0%Qc) -> apply n A x i = (v * x k)%Qc.
Proof.
  intros Hk HA. unfold apply.
  rewrite (sum_ext n _ (fun j => (if Nat.eqb j k then v * x k else 0)%Qc)).
  - rewrite (sum_delta n k (fun _ => (v * x k)%Qc)) by exact Hk. reflexivity.
  - intros j Hj. rewrite (HA j Hj). rewrite (Nat.eqb_sym j k). destruct (Nat.eqb_spec k j) as [->|]; ring.
Qed.

(** ** QuadProg *)
Lemma quadprog_ok nv ne ni q jm jv : well_sized nv ne ni q ->
  exists p, quadprog_args jm jv q = Some p /\ ineq_sized nv ne (ni + 2 * nv) p /\
    iQ p = qQ q /\ ic p = qc q /\ iAeq p = qAeq q /\ ibeq p = qbeq q /\
    (forall i j, i < ni -> j < nv -> at_ (iA p) i j = at_ (qAineq q) i j) /\
    (forall i j, i < nv -> j < nv -> at_ (iA p) (ni + i) j = if Nat.eqb i j then 1%Qc else 0%Qc) /\
    (forall i j, i < nv -> j < nv -> at_ (iA p) (ni + nv + i) j = if Nat.eqb i j then (- (1))%Qc else 0%Qc) /\
    (forall i, i < ni -> vget (ib p) i = vget (qbineq q) i) /\
    (forall i, i < nv -> vget (ib p) (ni + i) = vget (qub q) i) /\
    (forall i, i < nv -> vget (ib p) (ni + nv + i) = ext_opp (vget (qlb q) i)).
Proof.
  intros [Q1 [Q2 [Q3 [E1 [E2 [E3 [I1 [I2 [I3 [L U]]]]]]]]]].
  unfold quadprog_args, setTopRows, setHead, setTail. rewrite L, I1, I2. cbn [obind rows cols vsize].
  rewrite setBlock_ok by (cbn; lia). cbn [obind rows cols at_].
  rewrite setBlock_ok by (cbn; lia). cbn [obind rows cols at_].
  rewrite setBlock_ok by (cbn; lia). cbn [obind rows cols at_].
  unfold setSeg. cbn [vsize veopp]. rewrite L, U, I3. eqb_true. cbn [obind vsize vget]. eqb_true. cbn [obind vsize vget]. eqb_true. cbn [obind vsize vget].
  eexists. split; [reflexivity|]. cbn [iQ ic iAeq ibeq iA ib at_ rows cols vsize vget mopp mident veopp].
  split; [unfold ineq_sized; cbn; tauto|]. do 4 (split; [reflexivity|]).
  assert (B : forall a b, (a <=? b) = if le_lt_dec a b then true else false) by (intros; destruct (le_lt_dec a b); [apply Nat.leb_le|apply Nat.leb_gt]; lia).
  assert (B' : forall a b, (a <? b) = if le_lt_dec b a then false else true) by (intros; destruct (le_lt_dec b a); [apply Nat.ltb_ge|apply Nat.ltb_lt]; lia).
  repeat split; intros; rewrite ?B, ?B';
    repeat match goal with |- context [le_lt_dec ?a ?b] => destruct (le_lt_dec a b); try lia end; cbn [andb];
    try (f_equal; lia); try reflexivity.
  - replace (ni + i - ni) with i by lia. replace (j - 0) with j by lia. reflexivity.
  - replace (ni + nv + i - (ni + nv)) with i by lia. replace (j - 0) with j by lia. destruct (Nat.eqb i j); ring.
  - f_equal. f_equal. lia.
Qed.
Lemma quadprog_feasible nv ne ni q jm jv p x : well_sized nv ne ni q -> quadprog_args jm jv q = Some p ->
  (ineq_feasible p x <-> feasible q x).
Proof.
  intros W Ea. destruct (quadprog_ok nv ne ni q jm jv W) as [p' [Ea' [Z [_ [_ [A1 [A2 [R1 [R2 [R3 [V1 [V2 V3]]]]]]]]]]]].
  rewrite Ea in Ea'. injection Ea' as <-. destruct Z as [_ [_ [_ [_ [_ [_ [Z1 [Z2 _]]]]]]]].
  destruct W as [Q1 [Q2 [Q3 [E1 [E2 [E3 [I1 [I2 [I3 [L U]]]]]]]]]].
  unfold ineq_feasible, feasible. rewrite A1, A2, Z1, Z2, I1, I2, L.
  assert (P1 : forall i, i < ni -> apply nv (at_ (iA p)) x i = apply nv (at_ (qAineq q)) x i).
  { intros i Hi. apply sum_ext. intros j Hj. rewrite (R1 i j Hi Hj). reflexivity. }
  assert (P2 : forall i, i < nv -> apply nv (at_ (iA p)) x (ni + i) = x i).
  { intros i Hi. rewrite (apply_row_delta nv _ x (ni + i) i 1%Qc Hi); [ring|]. intros j Hj. apply R2; assumption. }
  assert (P3 : forall i, i < nv -> apply nv (at_ (iA p)) x (ni + nv + i) = (- x i)%Qc).
  { intros i Hi. rewrite (apply_row_delta nv _ x (ni + nv + i) i (- (1))%Qc Hi); [ring|]. intros j Hj. apply R3; assumption. }
  unfold rows_hold at 2 4, within_bounds, cmp. split.
  - intros [H1 H2]. split; [exact H1|]. split.
    + intros i Hi. specialize (H2 i ltac:(lia)). rewrite P1, V1 in H2 by exact Hi. exact H2.
    + intros i Hi. split.
      * specialize (H2 (ni + nv + i) ltac:(lia)). rewrite P3, V3 in H2 by exact Hi. apply q_le_ext_opp. exact H2.
      * specialize (H2 (ni + i) ltac:(lia)). rewrite P2, V2 in H2 by exact Hi. exact H2.
  - intros [H1 [H2 H3]]. split; [exact H1|]. intros i Hi.
    destruct (le_lt_dec ni i) as [G|G]; [|rewrite P1, V1 by exact G; apply H2; exact G].
    destruct (le_lt_dec (ni + nv) i) as [G'|G'].
    + replace i with (ni + nv + (i - (ni + nv))) by lia. rewrite P3, V3 by lia. apply q_le_ext_opp. apply H3. lia.
    + replace i with (ni + (i - ni)) by lia. rewrite P2, V2 by lia. apply H3. lia.
Qed.

(** ** two-sided rows *)
Lemma box_rows ne ni nv (A Ae Ai : nat -> nat -> Qc) (bl bu be bi : nat -> ext) (low : ext) x :
  (forall i j, i < ne -> j < nv -> A i j = Ae i j) -> (forall i j, i < ni -> j < nv -> A (ne + i) j = Ai i j) ->
  (forall i, i < ne -> bl i = be i /\ bu i = be i) -> (forall i, i < ni -> bl (ne + i) = low /\ bu (ne + i) = bi i) ->
  (within_bounds (ne + ni) bl bu (apply nv A x) <->
   rows_hold false ne nv Ae be x /\ rows_hold true ni nv Ai bi x /\ forall i, i < ni -> ext_le_q low (apply nv Ai x i)).
Proof.
  intros H1 H2 H3 H4.
  assert (P1 : forall i, i < ne -> apply nv A x i = apply nv Ae x i) by (intros i Hi; apply sum_ext; intros j Hj; rewrite (H1 i j Hi Hj); reflexivity).
  assert (P2 : forall i, i < ni -> apply nv A x (ne + i) = apply nv Ai x i) by (intros i Hi; apply sum_ext; intros j Hj; rewrite (H2 i j Hi Hj); reflexivity).
  assert (EQ : forall e a, (ext_le_q e a /\ q_le_ext a e) <-> q_eq_ext a e).
  { intros e a. unfold q_eq_ext. destruct e as [|y|]; cbn; split; try tauto; try discriminate.
    - intros [K1 K2]. f_equal. apply Qcle_antisym; assumption.
    - intro K. injection K as ->. split; apply Qcle_refl. }
  unfold within_bounds, rows_hold, cmp. split.
  - intro H. repeat split.
    + intros i Hi. specialize (H i ltac:(lia)). destruct (H3 i Hi) as [K1 K2]. rewrite K1, K2, P1 in H by exact Hi. apply EQ. exact H.
    + intros i Hi. specialize (H (ne + i) ltac:(lia)). destruct (H4 i Hi) as [K1 K2]. rewrite K1, K2, P2 in H by exact Hi. apply H.
    + intros i Hi. specialize (H (ne + i) ltac:(lia)). destruct (H4 i Hi) as [K1 K2]. rewrite K1, K2, P2 in H by exact Hi. apply H.
  - intros [K1 [K2 K3]] i Hi. destruct (le_lt_dec ne i) as [G|G].
    + replace i with (ne + (i - ne)) by lia. destruct (H4 (i - ne) ltac:(lia)) as [-> ->]. rewrite P2 by lia. split; [apply K3|apply K2]; lia.
    + destruct (H3 i G) as [-> ->]. rewrite P1 by exact G. apply EQ. apply K1. exact G.
Qed.

Definition box_of (low : ext) (nv ne ni : nat) (q : qp) (p : box_qp) : Prop :=
  box_sized nv (ne + ni) p /\ xQ p = qQ q /\ xc p = qc q /\ xXL p = qlb q /\ xXU p = qub q /\
  (forall i j, i < ne -> j < nv -> at_ (xA p) i j = at_ (qAeq q) i j) /\
  (forall i j, i < ni -> j < nv -> at_ (xA p) (ne + i) j = at_ (qAineq q) i j) /\
  (forall i, i < ne -> vget (xbl p) i = vget (qbeq q) i /\ vget (xbu p) i = vget (qbeq q) i) /\
  (forall i, i < ni -> vget (xbl p) (ne + i) = low /\ vget (xbu p) (ne + i) = vget (qbineq q) i).
Lemma box_of_feasible low nv ne ni q p x : well_sized nv ne ni q -> box_of low nv ne ni q p ->
  (box_feasible p x <-> feasible q x /\ forall i, i < ni -> ext_le_q low (apply nv (at_ (qAineq q)) x i)).
Proof.
  intros [Q1 [Q2 [Q3 [E1 [E2 [E3 [I1 [I2 [I3 [L U]]]]]]]]]] [Z [B1 [B2 [B3 [B4 [R1 [R2 [V1 V2]]]]]]]].
  destruct Z as [_ [_ [_ [Z1 [Z2 [_ [_ [Z3 _]]]]]]]].
  unfold box_feasible, feasible. rewrite Z1, Z2, E1, E2, I1, I2, B3, B4.
  rewrite (box_rows ne ni nv _ _ _ _ _ _ _ low x R1 R2 V1 V2). tauto.
Qed.
Lemma box_of_value low nv ne ni q p x : box_of low nv ne ni q p -> box_value p x = qp_value q x.
Proof. intros [_ [B1 [B2 _]]]. unfold box_value, qp_value. rewrite B1, B2. reflexivity. Qed.

Ltac cases_lt :=
  repeat match goal with
  | |- context [?a <=? ?b] => destruct (Nat.leb_spec a b); try lia
  | |- context [?a <? ?b] => destruct (Nat.ltb_spec a b); try lia
  end; cbn [andb].

Lemma lssol_ok s nv ne ni q jm jv : well_sized nv ne ni q -> fits_int (ne + ni) = true ->
  exists s1 s2 p, lssol_problem jm jv s nv ne ni = Some (nv, ne + ni, s1) /\ lssol_args s1 q = Some (s2, p) /\ box_of NInf nv ne ni q p.
Proof.
  intros [Q1 [Q2 [Q3 [E1 [E2 [E3 [I1 [I2 [I3 [L U]]]]]]]]]] F.
  unfold lssol_problem. rewrite F. eexists _, _, _. split; [reflexivity|].
  assert (RS : forall m r c, rows (mresize jm m r c) = r /\ cols (mresize jm m r c) = c).
  { intros m r c. unfold mresize. destruct (Nat.eqb_spec (rows m) r), (Nat.eqb_spec (cols m) c); cbn; auto. }
  assert (VS : forall v r, vsize (vresize jv v r) = r).
  { intros v r. unfold vresize. destruct (Nat.eqb_spec (vsize v) r); cbn; auto. }
  destruct (RS (lsA s) (ne + ni) nv) as [S1 S2]. pose proof (VS (lsbl s) (ne + ni)) as S3. pose proof (VS (lsbu s) (ne + ni)) as S4.
  unfold lssol_args. cbn [lsA lsbl lsbu]. set (A0 := mresize _ _ _ _) in *. set (l0 := vresize _ (lsbl s) _) in *. set (u0 := vresize _ (lsbu s) _) in *.
  rewrite E1, E2, I1. rewrite setBlock_ok by (cbn; lia). cbn [obind]. rewrite setBlock_ok by (cbn; lia). cbn [obind].
  unfold setHead, setTail, setSeg. cbn [vsize vconst]. rewrite E3, I3, S3, S4. eqb_true. cbn [obind vsize vget]. rewrite ?S3, ?S4. eqb_true. cbn [obind vsize vget].
  eqb_true. cbn [obind]. split; [reflexivity|]. unfold box_of. cbn [xQ xc xA xbl xbu xXL xXU rows cols vsize vget at_].
  split; [unfold box_sized; cbn [xQ xc xA xbl xbu xXL xXU rows cols vsize]; rewrite ?S1, ?S2; tauto|]. do 4 (split; [reflexivity|]).
  repeat split; intros; cases_lt; try (f_equal; lia); reflexivity.
Qed.

Lemma osqp_ok nv ne ni q jm jv : well_sized nv ne ni q ->
  exists p, osqp_args jm jv q = Some p /\ box_of (Fin (- DBL_MAX)%Qc) nv ne ni q p.
Proof.
  intros [Q1 [Q2 [Q3 [E1 [E2 [E3 [I1 [I2 [I3 [L U]]]]]]]]]].
  unfold osqp_args, setTopRows, setBottomRows, setHead, setTail. rewrite E1, E2, I1.
  rewrite setBlock_ok by (cbn; lia). cbn [obind rows cols]. eqb_true. rewrite setBlock_ok by (cbn; lia). cbn [obind].
  unfold setSeg. cbn [vsize vconst]. rewrite E3, I3. eqb_true. cbn [obind vsize vget]. eqb_true. cbn [obind vsize vget]. eqb_true. cbn [obind].
  eexists. split; [reflexivity|]. unfold box_of. cbn [xQ xc xA xbl xbu xXL xXU rows cols vsize vget at_].
  split; [unfold box_sized; cbn [xQ xc xA xbl xbu xXL xXU rows cols vsize]; tauto|]. do 4 (split; [reflexivity|]).
  repeat split; intros; cases_lt; try (f_equal; lia); reflexivity.
Qed.

(** ** convexity along a segment *)
Definition toward (t : Qc) (U V : nat -> Qc) (i : nat) : Qc := (U i + t * (V i - U i))%Qc.
Lemma apply_toward k M t U V i : apply k M (toward t U V) i = (apply k M U i + t * (apply k M V i - apply k M U i))%Qc.
Proof.
  unfold apply, toward. rewrite <- sum_sub, <- sum_scal_l, <- sum_add. apply sum_ext. intros j _. ring.
Qed.
Lemma quad_toward k Q t U V : (quad k Q (toward t U V) + t * (1 - t) * quad k Q (fun i => U i - V i) = (1 - t) * quad k Q U + t * quad k Q V)%Qc.
Proof.
  unfold quad. rewrite <- !sum_scal_l, <- !sum_add. apply sum_ext. intros i _.
  rewrite apply_toward. unfold toward.
  replace (apply k Q (fun i0 => U i0 - V i0)%Qc i) with (apply k Q U i - apply k Q V i)%Qc.
  - ring.
  - unfold apply. rewrite <- sum_sub. apply sum_ext. intros; ring.
Qed.
Lemma objective_toward k Q c t U V : (0 <= quad k Q (fun i => U i - V i) -> 0 <= t -> t <= 1 ->
  objective k Q c (toward t U V) <= objective k Q c U + t * (objective k Q c V - objective k Q c U))%Qc.
Proof.
  intros H T0 T1. unfold objective. fold (quad k Q U) (quad k Q V) (quad k Q (toward t U V)).
  assert (L : (sum k (fun i => c i * toward t U V i) = sum k (fun i => c i * U i) + t * (sum k (fun i => c i * V i) - sum k (fun i => c i * U i)))%Qc).
  { rewrite <- sum_sub, <- sum_scal_l, <- sum_add. apply sum_ext. intros; unfold toward; ring. }
  rewrite L. pose proof (quad_toward k Q t U V) as P.
  set (a := quad k Q U) in *. set (b := quad k Q V) in *. set (z := quad k Q (toward t U V)) in *. set (d := quad k Q (fun i => (U i - V i)%Qc)) in *.
  set (x := sum k (fun i => c i * U i)%Qc). set (y := sum k (fun i => c i * V i)%Qc).
  assert (D : (0 <= t * (1 - t) * d)%Qc).
  { apply qc_mul_nonneg; [|exact H]. apply qc_mul_nonneg; [exact T0|]. qc_lra. }
  assert (Z : (z = (1 - t) * a + t * b - t * (1 - t) * d)%Qc) by (rewrite <- P; ring).
  rewrite Z. set (g := (t * (1 - t) * d)%Qc) in *.
  assert (G : (half * ((1 - t) * a + t * b - g) + (x + t * (y - x)) = (half * a + x) + t * ((half * b + y) - (half * a + x)) - half * g)%Qc) by ring.
  rewrite G. assert (Hg : (0 <= half * g)%Qc) by (apply qc_mul_nonneg; [apply Qclt_le_weak; reflexivity|exact D]). qc_lra.
Qed.
Lemma cmp_toward ineq t a b e : (0 <= t -> t <= 1 -> cmp ineq a e -> cmp ineq b e -> cmp ineq (a + t * (b - a)) e)%Qc.
Proof.
  intros T0 T1. unfold cmp. destruct ineq; destruct e as [|y|]; cbn; try tauto; unfold q_eq_ext.
  - intros H1 H2. assert (A : (0 <= (1 - t) * (y - a))%Qc) by (apply qc_mul_nonneg; qc_lra).
    assert (B : (0 <= t * (y - b))%Qc) by (apply qc_mul_nonneg; [exact T0|qc_lra]).
    assert (E : (y - (a + t * (b - a)) = (1 - t) * (y - a) + t * (y - b))%Qc) by ring. qc_lra.
  - discriminate.
  - intros H1 H2. injection H1 as ->. injection H2 as ->. f_equal. ring.
  - discriminate.
Qed.
Lemma feasible_toward q t U V : (0 <= t)%Qc -> (t <= 1)%Qc -> feasible q U -> feasible q V -> feasible q (toward t U V).
Proof.
  intros T0 T1 [A1 [A2 A3]] [B1 [B2 B3]]. unfold feasible. split; [|split].
  - intros i Hi. rewrite apply_toward. apply cmp_toward; auto.
  - intros i Hi. rewrite apply_toward. apply cmp_toward; auto.
  - intros i Hi. destruct (A3 i Hi) as [C1 C2]. destruct (B3 i Hi) as [D1 D2]. unfold toward. split.
    + apply q_le_ext_opp. apply q_le_ext_opp in C1. apply q_le_ext_opp in D1.
      pose proof (cmp_toward true t _ _ _ T0 T1 C1 D1) as K. cbn in K. replace (- (U i + t * (V i - U i)))%Qc with (- U i + t * (- V i - - U i))%Qc by ring. exact K.
    + exact (cmp_toward true t _ _ _ T0 T1 C2 D2).
Qed.
Lemma small_step n (a b : nat -> Qc) (D : Qc) : (forall i, i < n -> (D < a i)%Qc) ->
  exists t, (0 < t)%Qc /\ (t <= 1)%Qc /\ forall i, i < n -> (D <= a i + t * (b i - a i))%Qc.
Proof.
  induction n as [|n IH]; intro H.
  - exists 1%Qc. split; [reflexivity|]. split; [apply Qcle_refl|]. intros; lia.
  - destruct IH as [t [T0 [T1 HT]]]; [intros i Hi; apply H; lia|].
    assert (DN : forall s, (0 <= s)%Qc -> (s <= t)%Qc -> forall i, i < n -> (D <= a i + s * (b i - a i))%Qc).
    { intros s S0 S1 i Hi. specialize (HT i Hi). assert (Ha : (D < a i)%Qc) by (apply H; lia).
      destruct (Qclt_le_dec (b i - a i)%Qc 0%Qc) as [N|N].
      - assert (K : (0 <= (t - s) * (a i - b i))%Qc) by (apply qc_mul_nonneg; qc_lra).
        assert (E : (a i + s * (b i - a i) = a i + t * (b i - a i) + (t - s) * (a i - b i))%Qc) by ring. rewrite E. qc_lra.
      - assert (K : (0 <= s * (b i - a i))%Qc) by (apply qc_mul_nonneg; [exact S0|exact N]). qc_lra. }
    assert (Hn : (D < a n)%Qc) by (apply H; lia).
    destruct (Qclt_le_dec (a n - D)%Qc (t * (a n - b n))%Qc) as [G|G].
    + (* the last row is the tightest *)
      assert (P : (0 < a n - b n)%Qc).
      { destruct (Qclt_le_dec 0%Qc (a n - b n)%Qc) as [X|X]; [exact X|]. exfalso.
        assert (K : (0 <= t * (b n - a n))%Qc) by (apply qc_mul_nonneg; [apply Qclt_le_weak; exact T0|qc_lra]).
        assert (E : (t * (a n - b n) = - (t * (b n - a n)))%Qc) by ring. rewrite E in G. qc_lra. }
      assert (NZ : (a n - b n)%Qc <> 0%Qc) by (intro E; rewrite E in P; discriminate P).
      set (s := ((a n - D) / (a n - b n))%Qc).
      assert (Es : (s * (a n - b n) = a n - D)%Qc) by (unfold s; field; exact NZ).
      assert (S0 : (0 < s)%Qc).
      { destruct (Qclt_le_dec 0%Qc s) as [X|X]; [exact X|]. exfalso.
        assert (K : (0 <= (- s) * (a n - b n))%Qc) by (apply qc_mul_nonneg; [qc_lra|apply Qclt_le_weak; exact P]).
        assert (E : ((- s) * (a n - b n) = - (s * (a n - b n)))%Qc) by ring. rewrite E, Es in K. qc_lra. }
      assert (S1 : (s <= t)%Qc).
      { destruct (Qclt_le_dec t s) as [X|X]; [|exact X]. exfalso.
        assert (K : (0 < (s - t) * (a n - b n))%Qc) by (apply qc_mul_pos; [qc_lra|exact P]).
        assert (E : ((s - t) * (a n - b n) = s * (a n - b n) - t * (a n - b n))%Qc) by ring. rewrite E, Es in K. qc_lra. }
      exists s. split; [exact S0|]. split; [eapply Qcle_trans; [exact S1|exact T1]|]. intros i Hi.
      destruct (Nat.eq_dec i n) as [->|NE].
      * assert (E : (a n + s * (b n - a n) = a n - s * (a n - b n))%Qc) by ring. rewrite E, Es. qc_lra.
      * apply DN; [apply Qclt_le_weak; exact S0|exact S1|lia].
    + exists t. split; [exact T0|]. split; [exact T1|]. intros i Hi. destruct (Nat.eq_dec i n) as [->|NE].
      * assert (E : (a n + t * (b n - a n) = a n - t * (a n - b n))%Qc) by ring. rewrite E. qc_lra.
      * apply HT. lia.
Qed.
Lemma slack_least q x :
  (forall v, (0 <= quad (vsize (qc q)) (at_ (qQ q)) v)%Qc) -> rows_strictly_representable q x ->
  least (fun y => feasible q y /\ rows_representable q y) (qp_value q) x -> least (feasible q) (qp_value q) x.
Proof.
  intros PS SL [[Fx _] Op]. split; [exact Fx|]. intros y Fy.
  destruct (small_step _ _ (fun i => apply (cols (qAineq q)) (at_ (qAineq q)) y i) _ SL) as [t [T0 [T1 HT]]].
  assert (T0' : (0 <= t)%Qc) by (apply Qclt_le_weak; exact T0).
  assert (Fz : feasible q (toward t x y)) by (apply feasible_toward; assumption).
  assert (K : (qp_value q x <= qp_value q (toward t x y))%Qc).
  { apply Op. split; [exact Fz|]. intros i Hi. rewrite apply_toward. apply HT. exact Hi. }
  pose proof (objective_toward (vsize (qc q)) (at_ (qQ q)) (vget (qc q)) t x y (PS _) T0' T1) as C.
  change (qp_value q (toward t x y) <= qp_value q x + t * (qp_value q y - qp_value q x))%Qc in C.
  destruct (Qclt_le_dec (qp_value q y) (qp_value q x)) as [X|X]; [|exact X]. exfalso.
  revert K C X. generalize (qp_value q (toward t x y)) (qp_value q x) (qp_value q y). intros a b c K C X.
  assert (M : (0 < t * (b - c))%Qc) by (apply qc_mul_pos; [exact T0|revert X; qc_lra]).
  assert (E : (t * (c - b) = - (t * (b - c)))%Qc) by ring. rewrite E in C.
  revert M K C. generalize (t * (b - c))%Qc. intros d M K C. revert M K C. clear. qc_lra.
Qed.
